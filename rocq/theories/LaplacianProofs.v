(** Lemmas on the Laplacians of a temporal network. *)
From Verif Require Import Base PartitionModel LouvainModel EventsModel EventsSpec EventsProofs.

Lemma joinsb_spec e i j : joinsb e i j = true <-> joins e i j.
Proof. unfold joinsb, joins. rewrite orb_true_iff, !andb_true_iff, !Nat.eqb_eq. tauto. Qed.
Lemma joinsb_sym e i j : joinsb e i j = joinsb e j i.
Proof. unfold joinsb. apply orb_comm. Qed.

Lemma qn_Spos n : (0 < qn (S n))%num.
Proof. rewrite <- qn_0. apply qn_lt. lia. Qed.

(** * The arrays follow a graph *)
Definition graph := nat -> nat -> bool.
Definition ind (b : bool) : num := if b then 1%num else 0%num.
Record Wf (n : nat) (on : graph) (s : lstate) : Prop := {
  wf_A : forall i j, l_A s i j = ind (on i j);
  wf_sym : forall i j, on i j = on j i;
  wf_irr : forall i, on i i = false;
  wf_lt : forall i j, on i j = true -> i < n;
  wf_deg : forall i, l_deg s i = qn (degree n on i);
  wf_S : forall i, l_S s i = if degree n on i =? 0 then 1%num else 0%num;
  wf_D : forall i, l_D s i = if degree n on i =? 0 then 1%num else (1 / qn (degree n on i))%num }.
Definition put (e : event) (b : bool) (on : graph) : graph := fun i j => if joinsb e i j then b else on i j.

Lemma degree_ext n (f g : graph) i : (forall j, j < n -> f i j = g i j) -> degree n f i = degree n g i.
Proof. intros H. unfold degree. f_equal. apply filter_ext_in. intros j Hj. apply in_seq in Hj. apply H. lia. Qed.
Lemma filter_one {A} (f g : A -> bool) l x : NoDup l -> In x l -> f x = false -> g x = true -> (forall y, y <> x -> g y = f y) ->
  length (filter g l) = S (length (filter f l)).
Proof.
  intros HN. induction HN as [|a l Ha HN IH]; [intros []|]. intros Hx Hf Hg He. cbn [filter]. destruct Hx as [-> | Hx].
  - rewrite Hf, Hg. cbn. f_equal. f_equal. apply filter_ext_in. intros y Hy. apply He. intros ->. contradiction.
  - rewrite (He a) by (intros ->; contradiction). destruct (f a); cbn [length]; now rewrite IH.
Qed.
Lemma degree_put n on e b i : e_src e <> e_tgt e -> i <> e_src e -> i <> e_tgt e -> degree n (put e b on) i = degree n on i.
Proof.
  intros He H1 H2. apply degree_ext. intros j _. unfold put. destruct (joinsb e i j) eqn:E; [|reflexivity].
  apply joinsb_spec in E. unfold joins in E. exfalso. intuition congruence.
Qed.
Lemma degree_join n on e i j : joins e i j -> i <> j -> j < n -> on i j = false -> degree n (put e true on) i = S (degree n on i).
Proof.
  intros HJ Hij Hj Ho. unfold degree. apply (filter_one _ _ _ j).
  - apply seq_NoDup.
  - apply in_seq. lia.
  - assumption.
  - unfold put. now rewrite (proj2 (joinsb_spec e i j) HJ).
  - intros y Hy. unfold put. destruct (joinsb e i y) eqn:E; [|reflexivity]. apply joinsb_spec in E. unfold joins in *. exfalso. intuition congruence.
Qed.
Lemma degree_cut n on e i j : joins e i j -> i <> j -> j < n -> on i j = true -> S (degree n (put e false on) i) = degree n on i.
Proof.
  intros HJ Hij Hj Ho. unfold degree. symmetry. apply (filter_one _ _ _ j).
  - apply seq_NoDup.
  - apply in_seq. lia.
  - unfold put. now rewrite (proj2 (joinsb_spec e i j) HJ).
  - assumption.
  - intros y Hy. unfold put. destruct (joinsb e i y) eqn:E; [|reflexivity]. apply joinsb_spec in E. unfold joins in *. exfalso. intuition congruence.
Qed.
Lemma put_same on e b i j : (forall i j, on i j = on j i) -> on (e_src e) (e_tgt e) = b -> put e b on i j = on i j.
Proof.
  intros Hs H. unfold put. destruct (joinsb e i j) eqn:E; [|reflexivity]. apply joinsb_spec in E as [[<- <-] | [<- <-]]; [congruence|]. rewrite Hs. congruence.
Qed.
Lemma joins_src_tgt e : joins e (e_src e) (e_tgt e). Proof. left. now split. Qed.
Lemma joins_tgt_src e : joins e (e_tgt e) (e_src e). Proof. right. now split. Qed.

(** one half of apply_event: A and degrees *)
Definition mid n (on : graph) (s : lstate) : Prop := (forall i j, l_A s i j = ind (on i j)) /\ forall i, l_deg s i = qn (degree n on i).
Lemma qeqb_ind b : qeqb (ind b) 1%num = b.
Proof. destruct b; reflexivity. Qed.
Lemma qltb_ind b : qltb 0%num (ind b) = b.
Proof. destruct b; reflexivity. Qed.
Lemma connect_mid n on s e : Wf n on s -> e_src e <> e_tgt e -> e_src e < n -> e_tgt e < n ->
  let s' := connect (e_src e) (e_tgt e) s in mid n (put e true on) s' /\ l_S s' = l_S s /\ l_D s' = l_D s.
Proof.
  intros W Hne Hi Hj. destruct W as [HA Hsym Hirr Hlt Hdeg HS HD]. unfold connect. rewrite HA, qeqb_ind. destruct (on (e_src e) (e_tgt e)) eqn:E; cbn [negb].
  - split; [|now split]. split.
    + intros i j. rewrite HA. now rewrite put_same.
    + intros i. rewrite Hdeg. f_equal. apply degree_ext. intros j _. symmetry. now apply put_same.
  - cbn zeta. split; [|now split]. split.
    + intros i j. cbn [l_A]. unfold set2, put, joinsb. rewrite (Nat.eqb_sym i), (Nat.eqb_sym j), (Nat.eqb_sym i), (Nat.eqb_sym j).
      destruct (e_src e =? i), (e_tgt e =? j), (e_src e =? j), (e_tgt e =? i); cbn; try reflexivity; apply HA.
    + intros i. cbn [l_deg]. unfold set1. destruct (Nat.eqb_spec i (e_tgt e)) as [-> |H2].
      * destruct (Nat.eqb_spec (e_tgt e) (e_src e)); [congruence|]. rewrite (degree_join n on e _ (e_src e)); auto using joins_tgt_src; [|now rewrite Hsym].
        rewrite Hdeg, qn_S. ring.
      * destruct (Nat.eqb_spec i (e_src e)) as [-> |H1].
        -- rewrite (degree_join n on e _ (e_tgt e)); auto using joins_src_tgt. rewrite Hdeg, qn_S. ring.
        -- now rewrite degree_put.
Qed.
Lemma disconnect_mid n on s e : Wf n on s -> e_src e <> e_tgt e -> e_src e < n -> e_tgt e < n ->
  let s' := disconnect (e_src e) (e_tgt e) s in mid n (put e false on) s' /\ l_S s' = l_S s /\ l_D s' = l_D s.
Proof.
  intros W Hne Hi Hj. destruct W as [HA Hsym Hirr Hlt Hdeg HS HD]. unfold disconnect. rewrite HA, qltb_ind. destruct (on (e_src e) (e_tgt e)) eqn:E.
  - cbn zeta. split; [|now split]. split.
    + intros i j. cbn [l_A]. unfold set2, put, joinsb. rewrite (Nat.eqb_sym i), (Nat.eqb_sym j), (Nat.eqb_sym i), (Nat.eqb_sym j).
      destruct (e_src e =? i), (e_tgt e =? j), (e_src e =? j), (e_tgt e =? i); cbn; try reflexivity; apply HA.
    + intros i. cbn [l_deg]. unfold set1. destruct (Nat.eqb_spec i (e_tgt e)) as [-> |H2].
      * destruct (Nat.eqb_spec (e_tgt e) (e_src e)); [congruence|]. rewrite Hdeg, <- (degree_cut n on e _ (e_src e)); auto using joins_tgt_src; [|now rewrite Hsym].
        rewrite qn_S. ring.
      * destruct (Nat.eqb_spec i (e_src e)) as [-> |H1].
        -- rewrite Hdeg, <- (degree_cut n on e _ (e_tgt e)); auto using joins_src_tgt. rewrite qn_S. ring.
        -- now rewrite degree_put.
  - split; [|now split]. split.
    + intros i j. rewrite HA. now rewrite put_same.
    + intros i. rewrite Hdeg. f_equal. apply degree_ext. intros j _. symmetry. now apply put_same.
Qed.
Lemma qeqb_qn0 n : qeqb (qn n) 0%num = (n =? 0).
Proof.
  destruct (qeqb_spec (qn n) 0%num) as [E|E]; symmetry; [|apply Nat.eqb_neq; intros ->; apply E; reflexivity].
  apply Nat.eqb_eq. destruct n; [reflexivity|]. pose proof (qn_Spos n) as H. rewrite E in H. exfalso. qlra.
Qed.
Lemma refresh_A i s : l_A (refresh i s) = l_A s.
Proof. unfold refresh. now destruct (qeqb _ _). Qed.
Lemma refresh_deg i s : l_deg (refresh i s) = l_deg s.
Proof. unfold refresh. now destruct (qeqb _ _). Qed.
Lemma refresh_S n on s i k : mid n on s -> l_S (refresh i s) k = if k =? i then (if degree n on i =? 0 then 1 else 0)%num else l_S s k.
Proof.
  intros [_ Hd]. unfold refresh. rewrite Hd, qeqb_qn0. destruct (degree n on i =? 0); cbn [l_S]; unfold set1; now destruct (k =? i).
Qed.
Lemma refresh_D n on s i k : mid n on s -> l_D (refresh i s) k = if k =? i then (if degree n on i =? 0 then 1 else 1 / qn (degree n on i))%num else l_D s k.
Proof.
  intros [_ Hd]. unfold refresh. rewrite Hd, qeqb_qn0. destruct (degree n on i =? 0); cbn [l_D]; unfold set1; now destruct (k =? i).
Qed.
Lemma refresh_mid n on s i : mid n on s -> mid n on (refresh i s).
Proof. intros [H1 H2]. split; intros; [rewrite refresh_A|rewrite refresh_deg]; auto. Qed.
Lemma apply_event_Wf n on s e b : Wf n on s -> e_src e <> e_tgt e -> e_src e < n -> e_tgt e < n -> Wf n (put e b on) (apply_event e b s).
Proof.
  intros W Hne Hi Hj. unfold apply_event.
  set (s1 := if b then connect (e_src e) (e_tgt e) s else disconnect (e_src e) (e_tgt e) s).
  assert (M : mid n (put e b on) s1 /\ l_S s1 = l_S s /\ l_D s1 = l_D s).
  { unfold s1. destruct b; [now apply connect_mid|now apply disconnect_mid]. }
  destruct M as (M & ES & ED). pose proof (refresh_mid n _ s1 (e_src e) M) as M1. pose proof (refresh_mid n _ _ (e_tgt e) M1) as [MA MD].
  destruct W as [HA Hsym Hirr Hlt Hdeg HS HD]. constructor.
  - exact MA.
  - intros i j. unfold put. rewrite joinsb_sym. now rewrite Hsym.
  - intros i. unfold put. destruct (joinsb e i i) eqn:E; [|apply Hirr]. apply joinsb_spec in E. unfold joins in E. exfalso. intuition congruence.
  - intros i j. unfold put. destruct (joinsb e i j) eqn:E; [|apply Hlt]. intros _. apply joinsb_spec in E as [[<- <-] | [<- <-]]; assumption.
  - exact MD.
  - intros i. rewrite (refresh_S n _ _ _ _ M1), (refresh_S n _ _ _ _ M). destruct (Nat.eqb_spec i (e_tgt e)) as [-> |]; [reflexivity|].
    destruct (Nat.eqb_spec i (e_src e)) as [-> |]; [reflexivity|]. rewrite ES, HS. now rewrite degree_put.
  - intros i. rewrite (refresh_D n _ _ _ _ M1), (refresh_D n _ _ _ _ M). destruct (Nat.eqb_spec i (e_tgt e)) as [-> |]; [reflexivity|].
    destruct (Nat.eqb_spec i (e_src e)) as [-> |]; [reflexivity|]. rewrite ED, HD. now rewrite degree_put.
Qed.
Lemma degree_zero n on i : (forall j, on i j = false) -> degree n on i = 0.
Proof. intros H. unfold degree. induction (seq 0 n) as [|a l IH]; [reflexivity|]. cbn [filter]. now rewrite H. Qed.
Lemma lstate0_Wf n : Wf n (fun _ _ => false) lstate0.
Proof. constructor; intros; cbn; try reflexivity; try discriminate; now rewrite degree_zero. Qed.
Lemma degree_none n (on : graph) i j : degree n on i = 0 -> j < n -> on i j = false.
Proof.
  unfold degree. intros H Hj. destruct (on i j) eqn:E; [|reflexivity]. exfalso.
  assert (Hin : In j (filter (on i) (seq 0 n))) by (apply filter_In; split; [apply in_seq; lia|assumption]).
  destruct (filter (on i) (seq 0 n)); [contradiction|discriminate].
Qed.
Lemma laplacian_walk n on s : Wf n on s -> forall i j, i < n -> j < n -> laplacian s i j = ((if i =? j then 1 else 0) - walk n on i j)%num.
Proof.
  intros [HA Hsym Hirr Hlt Hdeg HS HD] i j Hi Hj. unfold laplacian, delta, walk. rewrite HA, HS, HD.
  destruct (degree n on i) as [|d] eqn:E; cbn [Nat.eqb].
  - rewrite (degree_none n on i j E Hj). unfold ind. destruct (i =? j); ring.
  - unfold ind. destruct (i =? j), (on i j); ring.
Qed.
Lemma walk_sum n (on : graph) i : i < n -> sumN n (fun j => walk n on i j) = 1%num.
Proof.
  intros Hi. unfold walk. destruct (degree n on i) as [|d] eqn:E.
  - unfold sumN. rewrite (sumL_ext _ (fun j => if j =? i then (fun _ => 1%num) j else 0%num)) by (intros; now rewrite Nat.eqb_sym).
    rewrite (sumL_delta _ i (fun _ => 1%num)); [reflexivity|apply seq_NoDup|apply in_seq; lia].
  - transitivity (qn (degree n on i) * (1 / qn (S d)))%num.
    + unfold degree, sumN. clear E. generalize (1 / qn (S d))%num. intros c. induction (seq 0 n) as [|a l IH]; [rewrite sumL_nil; cbn [filter length]; rewrite qn_0; ring|]. rewrite sumL_cons; cbn [filter]. rewrite IH. destruct (on i a); cbn [length]; [rewrite qn_S; ring|ring].
    + rewrite E. field. pose proof (qn_Spos d) as H. intros K. rewrite K in H. qlra.
Qed.
Lemma inv_qn_le1 d : (0 <= 1 / qn (S d) /\ 1 / qn (S d) <= 1)%num.
Proof.
  assert (H : (1 <= qn (S d))%num). { rewrite qn_S. pose proof (qn_nonneg d). qlra. }
  assert (H0 : (0 < qn (S d))%num) by apply qn_Spos.
  assert (HI : (0 < / qn (S d))%num) by now apply qinv_pos.
  assert (HM : (qn (S d) * / qn (S d) = 1)%num) by (field; intros K; rewrite K in H0; qlra).
  unfold Qcdiv. rewrite Qcmult_1_l. split; [qlra|]. pose proof (qmult_nonneg (qn (S d) - 1)%num (/ qn (S d))%num). 
  assert (0 <= (qn (S d) - 1) * / qn (S d))%num by (apply H1; qlra).
  replace ((qn (S d) - 1) * / qn (S d))%num with (1 - / qn (S d))%num in H2 by (rewrite <- HM at 1; ring). qlra.
Qed.
Lemma walk_like_graph n (on : graph) L : (forall i, on i i = false) ->
  (forall i j, i < n -> j < n -> L i j = ((if i =? j then 1 else 0) - walk n on i j)%num) -> walk_like n L.
Proof.
  intros Hirr HL. split; [|split].
  - intros i Hi. rewrite (sumN_ext n _ (fun j => (if i =? j then 1 else 0) - walk n on i j)%num) by (intros; apply HL; lia).
    unfold sumN. rewrite (sumL_sub (fun j => if i =? j then 1%num else 0%num) (fun j => walk n on i j)). pose proof (walk_sum n on i Hi) as HW. unfold sumN in HW. rewrite HW.
    rewrite (sumL_ext _ (fun j => if j =? i then (fun _ => 1%num) j else 0%num)) by (intros; now rewrite Nat.eqb_sym).
    rewrite (sumL_delta _ i (fun _ => 1%num)); [ring|apply seq_NoDup|apply in_seq; lia].
  - intros i Hi. rewrite HL by assumption. rewrite Nat.eqb_refl. unfold walk. rewrite Nat.eqb_refl, Hirr. destruct (degree n on i); [left|right]; ring.
  - intros i j Hi Hj Hij. rewrite HL by assumption. destruct (Nat.eqb_spec i j); [contradiction|]. unfold walk.
    destruct (degree n on i) as [|d]; [destruct (Nat.eqb_spec i j); [contradiction|]; split; qlra|].
    destruct (on i j); [pose proof (inv_qn_le1 d); split; qlra|split; qlra].
Qed.

(** * Rows of the grid *)
Definition table_ok (n : nat) (t : table) : Prop :=
  forall e, In e (map snd t) -> e_src e <> e_tgt e /\ e_src e < n /\ e_tgt e < n.
Lemma row_by_id_some t id e : row_by_id t id = Some e -> In (id, e) t.
Proof.
  unfold row_by_id. destruct (find _ t) as [r|] eqn:E; [|discriminate]. intros [= <-]. apply find_some in E as [H1 H2].
  apply Nat.eqb_eq in H2. subst id. now destruct r.
Qed.
Lemma row_by_id_own t id e : own_index t -> In (id, e) t -> row_by_id t id = Some e.
Proof.
  unfold own_index, row_by_id. intros HN Hin. induction t as [|[a f] t IH]; [contradiction|]. cbn [map fst] in HN. apply NoDup_cons_iff in HN as [H1 H2].
  cbn [find fst]. destruct (Nat.eqb_spec a id) as [-> |Hne].
  - destruct Hin as [[= <-] | Hin]; [reflexivity|]. exfalso. apply H1. apply in_map_iff. now exists (id, e).
  - destruct Hin as [[= -> ->] | Hin]; [congruence|]. now apply IH.
Qed.
Definition row_event (t : table) (r : grid_row) (e : event) : Prop := row_by_id t (g_id r) = Some e.
Fixpoint on_rows (t : table) (rs : list grid_row) (on : graph) : graph :=
  match rs with
  | [] => on
  | r :: rs => match row_by_id t (g_id r) with Some e => on_rows t rs (put e (g_is_start r) on) | None => on end
  end.
Definition rows_ok (t : table) (rs : list grid_row) : Prop := forall r, In r rs -> row_by_id t (g_id r) <> None.
Lemma apply_rows_Wf n t rs : table_ok n t -> rows_ok t rs -> forall on s, Wf n on s -> exists s', apply_rows t rs s = Some s' /\ Wf n (on_rows t rs on) s'.
Proof.
  intros HT. induction rs as [|r rs IH]; intros HR on s W; [exists s; now split|]. cbn [apply_rows on_rows]. unfold apply_row.
  destruct (row_by_id t (g_id r)) as [e|] eqn:E; [|exfalso; apply (HR r); [now left|assumption]].
  apply IH; [intros q Hq; apply HR; now right|]. apply row_by_id_some in E. destruct (HT e) as (H1 & H2 & H3); [apply in_map_iff; now exists (g_id r, e)|].
  now apply apply_event_Wf.
Qed.
Lemma on_rows_last t rs i j : rows_ok t rs -> forall on,
  (on_rows t rs on i j = on i j /\ forall r e, In r rs -> row_event t r e -> ~ joins e i j) \/
  (exists rs1 r e rs2, rs = rs1 ++ r :: rs2 /\ row_event t r e /\ joins e i j /\ on_rows t rs on i j = g_is_start r /\
     forall q f, In q rs2 -> row_event t q f -> ~ joins f i j).
Proof.
  induction rs as [|r rs IH]; intros HR on; [left; split; [reflexivity|intros r e []]|]. cbn [on_rows].
  destruct (row_by_id t (g_id r)) as [e|] eqn:E; [|exfalso; apply (HR r); [now left|assumption]].
  assert (HR' : rows_ok t rs) by (intros q Hq; apply HR; now right).
  destruct (IH HR' (put e (g_is_start r) on)) as [[H1 H2] | (rs1 & q & f & rs2 & -> & Q1 & Q2 & Q3 & Q4)].
  - destruct (joinsb e i j) eqn:EJ.
    + right. exists [], r, e, rs. apply joinsb_spec in EJ as HJ. repeat split; try assumption. rewrite H1. unfold put. now rewrite EJ.
    + left. split; [rewrite H1; unfold put; now rewrite EJ|]. intros q f [<- | Hq] Hf HJ; [|now apply (H2 q f)].
      unfold row_event in Hf. rewrite E in Hf. injection Hf as <-. apply joinsb_spec in HJ. congruence.
  - right. exists (r :: rs1), q, f, rs2. repeat split; assumption.
Qed.

(** * The grid *)
Lemma grid_row_in t r : In r (grid_rows t) -> exists e, In (g_id r, e) t /\ g_time r = if g_is_start r then e_start e else e_end e.
Proof.
  unfold grid_rows. rewrite in_app_iff, !in_map_iff. intros [([a e] & <- & H) | ([a e] & <- & H)]; exists e; now split.
Qed.
Lemma grid_row_start t a e : In (a, e) t -> In (mkRow (e_start e) a true) (grid_rows t).
Proof. intros H. unfold grid_rows. apply in_or_app. left. apply in_map_iff. now exists (a, e). Qed.
Lemma grid_row_end t a e : In (a, e) t -> In (mkRow (e_end e) a false) (grid_rows t).
Proof. intros H. unfold grid_rows. apply in_or_app. right. apply in_map_iff. now exists (a, e). Qed.
Lemma in_table (t : table) e : In e (map snd t) <-> exists a, In (a, e) t.
Proof. rewrite in_map_iff. split; [intros ([a f] & <- & H); now exists a|intros [a H]; now exists (a, e)]. Qed.
Definition group (g : list grid_row) (u : num) : list grid_row := filter (fun r => qeqb (g_time r) u) g.
Lemma group_in t g u r : is_time_grid t g -> In r (group g u) <-> In r (grid_rows t) /\ g_time r = u.
Proof.
  intros [HP _]. unfold group. rewrite filter_In. destruct (qeqb_spec (g_time r) u); split; intros [H1 H2]; try congruence; split; try congruence.
  - now apply (Permutation_in _ HP).
  - now apply (Permutation_in _ (Permutation_sym HP)).
Qed.
Lemma group_rows_ok t g u : is_time_grid t g -> own_index t -> rows_ok t (group g u).
Proof.
  intros HG HO r Hr. apply (group_in t g u r HG) in Hr as [Hr _]. apply grid_row_in in Hr as (e & He & _). rewrite (row_by_id_own t _ e HO He). discriminate.
Qed.
Lemma group_sorted t g u rs1 r rs2 q : is_time_grid t g -> group g u = rs1 ++ r :: rs2 -> In q rs1 -> g_id q <= g_id r.
Proof.
  intros [_ HS] E Hq.
  assert (HSG : StronglySorted row_le (group g u)).
  { unfold group. clear E. induction HS as [|a l H IH F]; [constructor|]. cbn [filter]. destruct (qeqb _ _); [|assumption]. constructor; [assumption|].
    rewrite Forall_forall in *. intros y Hy. apply filter_In in Hy as [Hy _]. now apply F. }
  assert (HT : forall x, In x (group g u) -> g_time x = u).
  { intros x Hx. unfold group in Hx. apply filter_In in Hx as [_ Hx]. now destruct (qeqb_spec (g_time x) u). }
  rewrite E in HSG, HT. clear E. induction rs1 as [|a rs1 IH]; [contradiction|]. cbn [app] in HSG. apply StronglySorted_inv in HSG as [H1 H2].
  destruct Hq as [<- | Hq]; [|apply IH; auto; intros; apply HT; now right]. rewrite Forall_forall in H2.
  specialize (H2 r ltac:(apply in_or_app; right; now left)). destruct H2 as [H2|[_ H2]]; [|assumption].
  rewrite (HT a), (HT r) in H2; [qlra|right; apply in_or_app; right; now left|now left].
Qed.

(** contacts going on just before a time *)
Definition before (t : table) (i j : nat) (u : num) : Prop := exists e, In e (map snd t) /\ joins e i j /\ (e_start e < u)%num /\ (u <= e_end e)%num.
Lemma no_rows_before t g i j u : is_time_grid t g -> own_index t ->
  (forall r e, In r (group g u) -> row_event t r e -> ~ joins e i j) -> (before t i j u <-> contact t i j u).
Proof.
  intros HG HO Hno. split; intros (e & He & HJ & H1); exists e; (split; [assumption|split; [assumption|]]); apply in_table in He as [a Ha]; pose proof (row_by_id_own t a e HO Ha) as HR.
  - destruct H1 as [H1 H2]. split; [qlra|]. destruct (Qclt_le_dec u (e_end e)) as [|Hle]; [assumption|]. exfalso.
    assert (u = e_end e) by (apply Qcle_antisym; assumption). apply (Hno (mkRow (e_end e) a false) e); [|exact HR|assumption].
    apply (group_in t g u _ HG). split; [now apply grid_row_end|now cbn].
  - destruct H1 as [H1 H2]. split; [|qlra]. destruct (Qclt_le_dec (e_start e) u) as [|Hle]; [assumption|]. exfalso.
    assert (u = e_start e) by (apply Qcle_antisym; assumption). apply (Hno (mkRow (e_start e) a true) e); [|exact HR|assumption].
    apply (group_in t g u _ HG). split; [now apply grid_row_start|now cbn].
Qed.
Lemma step_sound t g u on i j : is_time_grid t g -> own_index t -> lasting t -> (on i j = true -> before t i j u) ->
  on_rows t (group g u) on i j = true -> contact t i j u.
Proof.
  intros HG HO HL Hon H. destruct (on_rows_last t (group g u) i j (group_rows_ok t g u HG HO) on) as [[H1 H2] | (rs1 & r & e & rs2 & E & R1 & R2 & R3 & R4)].
  - rewrite H1 in H. apply (no_rows_before t g i j u HG HO H2). now apply Hon.
  - rewrite R3 in H. assert (Hr : In r (group g u)) by (rewrite E; apply in_or_app; right; now left).
    apply (group_in t g u r HG) in Hr as [Hr Hu]. apply grid_row_in in Hr as (f & Hf & Ef). rewrite H in Ef.
    pose proof (row_by_id_own t _ f HO Hf) as K. unfold row_event in R1. rewrite K in R1. injection R1 as <-.
    exists f. assert (Hin : In f (map snd t)) by (apply in_table; now exists (g_id r)). split; [assumption|split; [assumption|]]. specialize (HL f Hin). split; rewrite <- Hu, Ef; qlra.
Qed.
Lemma step_complete t g u on i j : is_time_grid t g -> own_index t -> lasting t -> no_overlap t -> index_by_start t -> (before t i j u -> on i j = true) ->
  contact t i j u -> on_rows t (group g u) on i j = true.
Proof.
  intros HG HO HL HV HX Hon HC. destruct (on_rows_last t (group g u) i j (group_rows_ok t g u HG HO) on) as [[H1 H2] | (rs1 & r & e & rs2 & E & R1 & R2 & R3 & R4)].
  - rewrite H1. apply Hon. now apply (no_rows_before t g i j u HG HO H2).
  - rewrite R3. destruct (g_is_start r) eqn:Es; [reflexivity|]. exfalso.
    assert (Hr : In r (group g u)) by (rewrite E; apply in_or_app; right; now left).
    apply (group_in t g u r HG) in Hr as [Hr Hu]. apply grid_row_in in Hr as (e' & He & Ee). rewrite Es in Ee.
    pose proof (row_by_id_own t _ e' HO He) as K. unfold row_event in R1. rewrite K in R1. injection R1 as ->.
    destruct HC as (f & Hf & HJ & F1 & F2). apply in_table in Hf as [b Hb]. pose proof (row_by_id_own t b f HO Hb) as Kb.
    assert (Hne : g_id r <> b). { intros Eb. rewrite Eb in K. rewrite K in Kb. injection Kb as <-. rewrite <- Hu, Ee in F2. qlra. }
    assert (HLe : (e_start e < e_end e)%num) by (apply HL; apply in_table; now exists (g_id r)).
    destruct (HV (g_id r) b e f i j He Hb Hne R2 HJ) as [H|H]; [|rewrite <- Hu, Ee in F2; qlra].
    assert (Efu : e_start f = u). { apply Qcle_antisym; [assumption|]. rewrite <- Hu, Ee. assumption. }
    assert (Hlt : g_id r < b). { apply (HX (g_id r) b e f He Hb). rewrite Efu, <- Hu, Ee. assumption. }
    assert (Hq : In (mkRow (e_start f) b true) (group g u)). { apply (group_in t g u _ HG). split; [now apply grid_row_start|exact Efu]. }
    rewrite E in Hq. apply in_app_iff in Hq as [Hq|[Hq|Hq]].
    + pose proof (group_sorted t g u rs1 r rs2 _ HG E Hq) as Hle. cbn in Hle. lia.
    + rewrite Hq in Es. discriminate.
    + apply (R4 _ f Hq); [exact Kb|assumption].
Qed.

(** * Windows *)
Definition next_time (ts : list num) (u v : num) : Prop := (u < v)%num /\ forall x, In x ts -> (x <= u)%num \/ (v <= x)%num.
Lemma next_before t u v i j : next_time (times t) u v -> (contact t i j u <-> before t i j v).
Proof.
  intros [Huv H]. split; intros (e & He & HJ & H1 & H2); exists e; (split; [assumption|split; [assumption|]]);
  assert (K1 : In (e_start e) (times t)) by (apply times_in; exists e; auto); assert (K2 : In (e_end e) (times t)) by (apply times_in; exists e; auto);
  destruct (H _ K1), (H _ K2); split; qlra.
Qed.
Lemma contact_constant t u v w i j : next_time (times t) u v -> (u <= w)%num -> (w < v)%num -> (contact t i j u <-> contact t i j w).
Proof.
  intros [Huv H] H1 H2. split; intros (e & He & HJ & K1 & K2); exists e; (split; [assumption|split; [assumption|]]);
  assert (G1 : In (e_start e) (times t)) by (apply times_in; exists e; auto); assert (G2 : In (e_end e) (times t)) by (apply times_in; exists e; auto);
  destruct (H _ G1), (H _ G2); split; qlra.
Qed.
Lemma lap_groups_inv n t g (Pre Post : num -> graph -> Prop) ts : table_ok n t -> own_index t -> is_time_grid t g ->
  (forall u on, Pre u on -> Post u (on_rows t (group g u) on)) -> Sorted (fun u v => forall on, Post u on -> Pre v on) ts ->
  forall on s, Wf n on s -> (match ts with [] => True | u :: _ => Pre u on end) ->
  exists Ls, lap_groups t g ts s = Some Ls /\ Forall2 (fun u L => exists on s, Wf n on s /\ Post u on /\ L = laplacian s) ts Ls.
Proof.
  intros HT HO HG HStep. induction ts as [|u ts IH]; intros HS on s W HP; [exists []; split; [reflexivity|constructor]|].
  apply Sorted_inv in HS as [HS HH]. cbn [lap_groups]. fold (group g u).
  destruct (apply_rows_Wf n t (group g u) HT (group_rows_ok t g u HG HO) on s W) as (s' & -> & W').
  pose proof (HStep u on HP) as HQ. destruct (IH HS _ _ W') as (Ls & -> & HF).
  { destruct ts as [|v ts]; [exact I|]. apply HdRel_inv in HH. now apply HH. }
  eexists. split; [reflexivity|]. constructor; [|assumption]. eauto.
Qed.
Lemma filter_lt_firstn l k : StronglySorted Qclt l -> k < length l -> filter (fun x => qltb x (nth k l 0%num)) l = firstn k l.
Proof.
  intros H. revert k. induction H as [|a l H IH F]; intros k Hk; [cbn in Hk; lia|]. cbn [length] in Hk. rewrite Forall_forall in F.
  destruct k as [|k]; cbn [nth firstn].
  - cbn [filter]. destruct (qltb_spec a a); [qlra|]. clear - F. induction l as [|b l IH]; [reflexivity|]. cbn [filter].
    destruct (qltb_spec b a) as [E|_]; [specialize (F b (or_introl eq_refl)); qlra|]. apply IH. intros; apply F; now right.
  - cbn [filter]. destruct (qltb_spec a (nth k l 0%num)) as [_|E]; [f_equal; apply IH; lia|]. exfalso. specialize (F (nth k l 0%num) ltac:(apply nth_In; lia)). contradiction.
Qed.
Lemma filter_ge_skipn l k : StronglySorted Qclt l -> k < length l -> filter (fun x => qleb (nth k l 0%num) x) l = skipn k l.
Proof.
  intros H. revert k. induction H as [|a l H IH F]; intros k Hk; [cbn in Hk; lia|]. cbn [length] in Hk. rewrite Forall_forall in F.
  destruct k as [|k]; cbn [nth skipn].
  - cbn [filter]. destruct (qleb_spec a a); [|qlra]. f_equal. clear - F. induction l as [|b l IH]; [reflexivity|]. cbn [filter].
    destruct (qleb_spec a b) as [_|E]; [|specialize (F b (or_introl eq_refl)); qlra]. f_equal. apply IH. intros; apply F; now right.
  - cbn [filter]. destruct (qleb_spec (nth k l 0%num) a) as [E|_]; [|apply IH; lia]. exfalso. specialize (F (nth k l 0%num) ltac:(apply nth_In; lia)). qlra.
Qed.
Lemma filter_andb {A} (f g : A -> bool) l : filter (fun x => (f x && g x)%bool) l = filter f (filter g l).
Proof. induction l as [|a l IH]; [reflexivity|]. cbn [filter]. destruct (g a); cbn [filter]; destruct (f a); cbn [andb]; now rewrite ?IH. Qed.
Lemma firstn_sorted {A} (R : A -> A -> Prop) k l : StronglySorted R l -> StronglySorted R (firstn k l).
Proof.
  intros H. revert k. induction H as [|a l H IH F]; intros [|k]; cbn; try constructor; auto. rewrite Forall_forall in *. intros x Hx. apply F.
  rewrite <- (firstn_skipn k l). apply in_or_app. now left.
Qed.
Lemma nth_firstn_lt {A} (l : list A) i k d : i < k -> nth i (firstn k l) d = nth i l d.
Proof.
  revert i k. induction l as [|a l IH]; intros i k H; [now rewrite firstn_nil|]. destruct k as [|k]; [lia|]. destruct i as [|i]; cbn; [reflexivity|]. apply IH. lia.
Qed.
Lemma nth_skipn_add {A} (l : list A) i k d : nth i (skipn k l) d = nth (k + i) l d.
Proof. revert k. induction l as [|a l IH]; intros [|k]; cbn; try reflexivity; [now destruct i|apply IH]. Qed.
Lemma window_filter l ka kb : StronglySorted Qclt l -> ka < length l -> kb < length l ->
  filter (fun x => (qleb (nth ka l 0%num) x && qltb x (nth kb l 0%num))%bool) l = skipn ka (firstn kb l).
Proof.
  intros HS Ha Hb. rewrite filter_andb, filter_lt_firstn by assumption. destruct (Nat.lt_ge_cases ka kb) as [H|H].
  - rewrite <- (nth_firstn_lt l ka kb) by assumption. apply filter_ge_skipn; [now apply firstn_sorted|rewrite firstn_length; lia].
  - rewrite skipn_all2 by (rewrite firstn_length; lia). rewrite <- filter_lt_firstn by assumption. rewrite <- filter_andb.
    assert (HE : forall x, In x l -> (qleb (nth ka l 0%num) x && qltb x (nth kb l 0%num))%bool = false).
    { intros x _. destruct (qleb_spec (nth ka l 0%num) x), (qltb_spec x (nth kb l 0%num)); try reflexivity. exfalso.
      destruct (Nat.eq_dec ka kb) as [-> |]; [qlra|]. pose proof (qsorted_nth l kb ka 0%num HS ltac:(lia) Ha). qlra. }
    revert HE. generalize (nth ka l 0%num) (nth kb l 0%num). clear. intros p q HE.
    induction l as [|a l IH]; [reflexivity|]. cbn [filter]. rewrite (HE a) by now left. apply IH. intros; apply HE; now right.
Qed.
Lemma next_time_nth l k : StronglySorted Qclt l -> S k < length l -> next_time l (nth k l 0%num) (nth (S k) l 0%num).
Proof.
  intros HS Hk. split; [apply qsorted_nth; [assumption|lia|lia]|]. intros x Hx. apply (In_nth _ _ 0%num) in Hx as (i & Hi & <-).
  destruct (Nat.lt_trichotomy i k) as [H|[-> |H]]; [left; pose proof (qsorted_nth l i k 0%num HS H ltac:(lia)); qlra|left; qlra|].
  right. destruct (Nat.eq_dec i (S k)) as [-> |]; [qlra|]. pose proof (qsorted_nth l (S k) i 0%num HS ltac:(lia) Hi). qlra.
Qed.
Lemma segment_nth (ts : list num) ka kb k : ka + k < kb -> kb <= length ts -> nth k (skipn ka (firstn kb ts)) 0%num = nth (ka + k) ts 0%num.
Proof. intros H1 H2. rewrite nth_skipn_add. now apply nth_firstn_lt. Qed.
Lemma sorted_by_nth (R : num -> num -> Prop) l : (forall k, S k < length l -> R (nth k l 0%num) (nth (S k) l 0%num)) -> Sorted R l.
Proof.
  induction l as [|a l IH]; intros H; constructor; [apply IH; intros k Hk; apply (H (S k)); cbn; lia|].
  destruct l as [|b l]; constructor. apply (H 0). cbn. lia.
Qed.
Lemma segment_next ts ka kb : StronglySorted Qclt ts -> kb < length ts -> Sorted (next_time ts) (skipn ka (firstn kb ts)).
Proof.
  intros HS Hb. apply sorted_by_nth. intros k Hk. rewrite skipn_length, firstn_length in Hk.
  rewrite !segment_nth by lia. replace (ka + S k) with (S (ka + k)) by lia. apply next_time_nth; [assumption|lia].
Qed.

Lemma nth_last {A} (l : list A) d : nth (length l - 1) l d = last l d.
Proof.
  induction l as [|a l IH]; [reflexivity|]. destruct l as [|b l]; [reflexivity|]. change (last (a :: b :: l) d) with (last (b :: l) d). rewrite <- IH. cbn [length]. replace (S (S (length l)) - 1) with (S (S (length l) - 1)) by lia. reflexivity.
Qed.
Lemma last_irrel {A} (l : list A) d d' : l <> [] -> last l d = last l d'.
Proof. induction l as [|a l IH]; [congruence|]. intros _. destruct l as [|b l]; [reflexivity|]. change (last (b :: l) d = last (b :: l) d'). apply IH. discriminate. Qed.
Lemma window_spec ts a b : StronglySorted Qclt ts -> ts <> [] -> exists ka kb, ka < length ts /\ kb < length ts /\
  window ts a b = Some ((nth ka ts 0%num, ka), (nth kb ts 0%num, kb)) /\ start_index ts a ka /\ stop_index ts b kb.
Proof.
  intros HS Hne. unfold window.
  assert (HA : exists ka, ka < length ts /\ match a with Some t => closest_time ts t | None => match ts with [] => None | t0 :: _ => Some (t0, 0) end end = Some (nth ka ts 0%num, ka) /\ start_index ts a ka).
  { destruct a as [a|].
    - destruct (closest_time_spec ts a HS Hne) as (k & H1 & H2 & H3). exists k. now rewrite H2.
    - exists 0. destruct ts; [congruence|]. cbn. repeat split; lia. }
  assert (HB : exists kb, kb < length ts /\ match b with Some t => closest_time ts t | None => match ts with [] => None | t0 :: _ => Some (last ts t0, length ts - 1) end end = Some (nth kb ts 0%num, kb) /\ stop_index ts b kb).
  { destruct b as [b|].
    - destruct (closest_time_spec ts b HS Hne) as (k & H1 & H2 & H3). exists k. now rewrite H2.
    - exists (length ts - 1). destruct ts as [|t0 ts]; [congruence|]. split; [cbn; lia|]. split; [|cbn [stop_index length]; lia].
      rewrite nth_last. rewrite (last_irrel (t0 :: ts) t0 0%num) by discriminate. reflexivity. }
  destruct HA as (ka & A1 & -> & A3), HB as (kb & B1 & -> & B3). exists ka, kb. repeat split; assumption.
Qed.
Lemma times_nonempty t : t <> [] -> times t <> [].
Proof.
  destruct t as [|[a e] t]; [congruence|]. intros _ E. assert (H : In (e_start e) (times ((a, e) :: t))) by (apply times_in; exists e; split; [now left|now left]). rewrite E in H. contradiction.
Qed.
Lemma ids_ok_spec N : ids_ok N = true <-> forall e, In e (map snd (rows N)) -> e_src e < num_nodes_of N /\ e_tgt e < num_nodes_of N.
Proof.
  unfold ids_ok. rewrite forallb_forall. split.
  - intros H e He. apply in_map_iff in He as (r & <- & Hr). specialize (H r Hr). rewrite andb_true_iff, !Nat.ltb_lt in H. assumption.
  - intros H r Hr. rewrite andb_true_iff, !Nat.ltb_lt. apply H. now apply in_map.
Qed.

(** * The whole computation *)
Lemma Forall2_len {A B} (R : A -> B -> Prop) l m : Forall2 R l m -> length l = length m.
Proof. induction 1; cbn; congruence. Qed.
Lemma fold_events_Wf n t l : table_ok n t -> incl l t -> forall on s, Wf n on s ->
  exists on', Wf n on' (fold_left (fun s r => apply_event (snd r) true s) l s) /\
    forall i j, on' i j = true <-> on i j = true \/ exists e, In e (map snd l) /\ joins e i j.
Proof.
  intros HT. induction l as [|r l IH]; intros HI on s W.
  - exists on. split; [assumption|]. intros i j. cbn. split; [tauto|]. intros [H|(e & [] & _)]. assumption.
  - cbn [fold_left]. destruct (HT (snd r)) as (H1 & H2 & H3); [apply in_map, HI; now left|].
    destruct (IH ltac:(intros x Hx; apply HI; now right) _ _ (apply_event_Wf n on s (snd r) true W H1 H2 H3)) as (on' & W' & H').
    exists on'. split; [assumption|]. intros i j. rewrite H'. unfold put. destruct (joinsb (snd r) i j) eqn:E.
    + apply joinsb_spec in E. split; [intros _; right; exists (snd r); cbn; auto|tauto].
    + split.
      * intros [H|(e & He & HJ)]; [now left|]. right. exists e. cbn. auto.
      * intros [H|(e & [<- | He] & HJ)]; [now left| |right; now exists e]. apply joinsb_spec in HJ. congruence.
Qed.
Lemma initial_Wf n t ts ka : table_ok n t -> exists on, Wf n on (initial_state t ts ka) /\
  forall i j, on i j = true <-> match ka with 0 => False | S k => contact t i j (nth k ts 0%num) end.
Proof.
  intros HT. unfold initial_state. destruct ka as [|k].
  - exists (fun _ _ => false). split; [apply lstate0_Wf|]. intros i j. split; [discriminate|contradiction].
  - destruct (fold_events_Wf n t (filter (fun r => going_on (snd r) (nth k ts 0%num)) t) HT) with (on := fun _ _ : nat => false) (s := lstate0) as (on & W & H).
    + intros x Hx. apply filter_In in Hx. tauto.
    + apply lstate0_Wf.
    + exists on. split; [assumption|]. intros i j. rewrite H. unfold contact, active. split.
      * intros [K|(e & He & HJ)]; [discriminate|]. apply in_map_iff in He as (r & <- & Hr). apply filter_In in Hr as [Hr G]. exists (snd r).
        unfold going_on in G. destruct (qleb_spec (e_start (snd r)) (nth k ts 0%num)), (qltb_spec (nth k ts 0%num) (e_end (snd r))); try discriminate.
        split; [now apply in_map|now split].
      * intros (e & He & HJ & H1 & H2). right. apply in_map_iff in He as (r & <- & Hr). exists (snd r). split; [|assumption]. apply in_map, filter_In. split; [assumption|].
        unfold going_on. destruct (qleb_spec (e_start (snd r)) (nth k ts 0%num)), (qltb_spec (nth k ts 0%num) (e_end (snd r))); try reflexivity; contradiction.
Qed.
Lemma laplacians_gen N g a b (Pre Post : num -> graph -> Prop) :
  rows N <> [] -> ids_ok N = true -> no_self_contact (rows N) -> own_index (rows N) -> is_time_grid (rows N) g ->
  (forall u on, Pre u on -> Post u (on_rows (rows N) (group g u) on)) ->
  (forall u v on, next_time (times (rows N)) u v -> Post u on -> Pre v on) ->
  (forall ka on, ka < length (times (rows N)) -> (forall i j, on i j = true <-> match ka with 0 => False | S k => contact (rows N) i j (nth k (times (rows N)) 0%num) end) ->
     Pre (nth ka (times (rows N)) 0%num) on) ->
  exists ka kb Ls, compute_laplacians N g a b = Some (ka, kb, Ls) /\ ka < length (times (rows N)) /\ kb < length (times (rows N)) /\
    start_index (times (rows N)) a ka /\ stop_index (times (rows N)) b kb /\ length Ls = kb - ka /\
    forall k, k < kb - ka -> exists on s, Wf (num_nodes_of N) on s /\ Post (nth (ka + k) (times (rows N)) 0%num) on /\ nth k Ls (fun _ _ => 0%num) = laplacian s.
Proof.
  intros Hne Hids Hself HO HG HStep HNext HInit. set (ts := times (rows N)) in *. pose proof (times_sorted (rows N)) as HS. fold ts in HS.
  assert (HT : table_ok (num_nodes_of N) (rows N)). { intros e He. split; [now apply Hself|]. now apply ids_ok_spec. }
  destruct (window_spec ts a b HS (times_nonempty _ Hne)) as (ka & kb & Ha & Hb & EW & HA & HB). exists ka, kb.
  unfold compute_laplacians. fold ts. rewrite EW, Hids. rewrite window_filter by assumption.
  destruct (initial_Wf (num_nodes_of N) (rows N) ts ka HT) as (on & W & Hon). specialize (HInit ka on Ha Hon).
  destruct (lap_groups_inv (num_nodes_of N) (rows N) g Pre Post (skipn ka (firstn kb ts)) HT HO HG HStep) with (on := on) (s := initial_state (rows N) ts ka) as (Ls & -> & HF).
  - pose proof (segment_next ts ka kb HS Hb) as K. clear - K HNext. induction K as [|u l K IH H]; constructor; [assumption|]. destruct H; constructor. intros; eauto.
  - assumption.
  - destruct (skipn ka (firstn kb ts)) as [|u l] eqn:E; [exact I|]. assert (EL : ka < kb).
    { destruct (Nat.lt_ge_cases ka kb); [assumption|]. rewrite skipn_all2 in E by (rewrite firstn_length; lia). discriminate. }
    pose proof (segment_nth ts ka kb 0 ltac:(lia) ltac:(lia)) as K. rewrite E in K. cbn [nth] in K. rewrite Nat.add_0_r in K. now rewrite K.
  - exists Ls. split; [reflexivity|]. repeat (split; [assumption|]).
    assert (LL : length (skipn ka (firstn kb ts)) = kb - ka) by (rewrite skipn_length, firstn_length; lia).
    pose proof (Forall2_len _ _ _ HF) as HLen. split; [lia|]. intros k Hk.
    rewrite <- (segment_nth ts ka kb k) by lia. clear - HF Hk LL. rewrite <- LL in Hk. clear LL. revert k Hk. induction HF as [|u L us Ls H HF IH]; intros k Hk; [cbn in Hk; lia|].
    destruct k as [|k]; cbn [nth]; [exact H|]. apply IH. cbn in Hk. lia.
Qed.
