From Verif Require Import Base PartitionModel PartitionSpec PartitionProofs LouvainModel LouvainSpec.

(** * Blocks *)
Lemma block_nil_l M b : block M [] b = 0%num.
Proof. reflexivity. Qed.
Lemma block_nil_r M a : block M a [] = 0%num.
Proof. apply sumL_zero. reflexivity. Qed.
Lemma block_cons_l M k a b : block M (k :: a) b = (row_sum M k b + block M a b)%num.
Proof. reflexivity. Qed.
Lemma block_cons_r M a k b : block M a (k :: b) = (col_sum M a k + block M a b)%num.
Proof. unfold block, col_sum. rewrite <- sumL_add. apply sumL_ext. intros. reflexivity. Qed.
Lemma block_perm M a a' b b' : Permutation a a' -> Permutation b b' -> block M a b = block M a' b'.
Proof.
  intros Ha Hb. unfold block. rewrite (sumL_perm _ _ _ Ha). apply sumL_ext. intros i _.
  now apply sumL_perm.
Qed.
Lemma block_app_l M a a' b : block M (a ++ a') b = (block M a b + block M a' b)%num.
Proof. apply sumL_app. Qed.
Lemma block_app_r M a b b' : block M a (b ++ b') = (block M a b + block M a b')%num.
Proof. unfold block. rewrite <- sumL_add. apply sumL_ext. intros. apply sumL_app. Qed.
Lemma block_concat M la lb :
  block M (concat la) (concat lb) = sumL (fun a => sumL (fun b => block M a b) lb) la.
Proof.
  unfold block at 1. rewrite sumL_concat. apply sumL_ext. intros a _.
  unfold block. symmetry. rewrite sumL_swap. apply sumL_ext. intros i _. now rewrite sumL_concat.
Qed.
Lemma block_ext M M' a b : (forall i j, In i a -> In j b -> M i j = M' i j) -> block M a b = block M' a b.
Proof. intros H. apply sumL_ext. intros i Hi. apply sumL_ext. auto. Qed.

Lemma perm_rem k c : NoDup c -> In k c -> Permutation c (k :: rem k c).
Proof.
  intros Hnd Hin. apply NoDup_perm_set; [exact Hnd| |].
  - constructor; [|now apply rem_NoDup]. rewrite rem_In. tauto.
  - intros x. simpl. rewrite rem_In. destruct (Nat.eq_dec k x); [subst|]; intuition.
Qed.
Lemma row_sum_rem M k x c : NoDup c -> In x c ->
  row_sum M k c = (M k x + row_sum M k (rem x c))%num.
Proof. intros. unfold row_sum. now apply (sumL_rem (fun j => M k j)). Qed.
Lemma col_sum_rem M x k c : NoDup c -> In x c ->
  col_sum M c k = (M x k + col_sum M (rem x c) k)%num.
Proof. intros. unfold col_sum. now apply (sumL_rem (fun j => M j k)). Qed.

Lemma block_insert M k c :
  block M (k :: c) (k :: c) = (block M c c + row_sum M k c + col_sum M c k + M k k)%num.
Proof.
  rewrite block_cons_l, block_cons_r. unfold row_sum at 1. simpl.
  fold (row_sum M k c). ring.
Qed.
Lemma block_remove M k c : NoDup c -> In k c ->
  block M (rem k c) (rem k c) = (block M c c - row_sum M k c - col_sum M c k + M k k)%num.
Proof.
  intros Hnd Hin.
  rewrite (block_perm M c (k :: rem k c) c (k :: rem k c)) by (apply perm_rem; assumption).
  rewrite block_insert, (row_sum_rem M k k c), (col_sum_rem M k k c) by assumption. ring.
Qed.

Lemma sum_Sto_eq M k ix : sum_Sto M k ix = (row_sum M k ix + col_sum M ix k + M k k)%num.
Proof.
  unfold sum_Sto.
  assert (H : forall d, fold_left (fun d i => (d + M k i + M i k)%num) ix d
            = (d + row_sum M k ix + col_sum M ix k)%num).
  { induction ix as [|i ix IH]; intros d; simpl; [unfold row_sum, col_sum; simpl; ring|].
    rewrite IH. unfold row_sum, col_sum. simpl. ring. }
  rewrite H. ring.
Qed.
Lemma sum_Sout_eq M k ix : sum_Sout M k ix = (M k k - row_sum M k ix - col_sum M ix k)%num.
Proof.
  unfold sum_Sout.
  assert (H : forall d, fold_left (fun d i => (d - M k i - M i k)%num) ix d
            = (d - row_sum M k ix - col_sum M ix k)%num).
  { induction ix as [|i ix IH]; intros d; simpl; [unfold row_sum, col_sum; simpl; ring|].
    rewrite IH. unfold row_sum, col_sum. simpl. ring. }
  rewrite H. ring.
Qed.

(** * Stability *)
Lemma stability_eq M p : compute_stability M p = sumL (fun c => block M c c) (cluster_list p).
Proof.
  unfold compute_stability, clustered_autocov. rewrite sumL_map. apply sumL_ext.
  intros [|x c] _; reflexivity.
Qed.
Lemma stability_remove_empty M p :
  compute_stability M (remove_empty_clusters p) = compute_stability M p.
Proof.
  rewrite !stability_eq. simpl. rewrite sumL_filter. apply sumL_ext.
  intros [|x c] _; reflexivity.
Qed.

Lemma sumL_upd {A} (f : A -> num) l i v d :
  i < length l -> sumL f (upd l i v) = (sumL f l - f (nth i l d) + f v)%num.
Proof.
  revert i. induction l as [|a l IH]; intros [|i] H; simpl in *; try lia; [ring|].
  rewrite IH by lia. ring.
Qed.

Lemma delta_exact M p k ci cf ro ri p' :
  valid p -> dget (n2c p) k = Some ci -> cf <> ci ->
  delta_moveout M p k ci = Some ro -> delta_moveto M p k cf = Some ri ->
  move_node p k cf = Done p' ->
  compute_stability M p' = (compute_stability M p + (ro + ri))%num.
Proof.
  intros Hv Hci Hne Hro Hri Hm.
  unfold delta_moveout in Hro. unfold delta_moveto in Hri. unfold move_node in Hm.
  rewrite Hci in Hm. destruct (Nat.eqb_spec ci cf) as [E|_]; [congruence|].
  destruct (nth_error (cluster_list p) ci) as [si|] eqn:Esi; [|discriminate].
  destruct (memb_spec k si) as [Hki|]; [|discriminate]. injection Hro as <-.
  rewrite nth_error_upd_neq in Hm by auto.
  destruct (nth_error (cluster_list p) cf) as [sf|] eqn:Esf; [|discriminate].
  destruct (memb_spec k sf) as [|Hkf]; [discriminate|]. injection Hri as <-.
  injection Hm as <-. rewrite !stability_eq. simpl.
  assert (Lci : ci < length (cluster_list p)) by (apply nth_error_Some; congruence).
  assert (Lcf : cf < length (cluster_list p)) by (apply nth_error_Some; congruence).
  rewrite (sumL_upd _ _ _ _ []) by (rewrite upd_length; exact Lcf).
  rewrite nth_upd_neq by auto. rewrite (sumL_upd _ _ _ _ []) by exact Lci.
  rewrite (nth_error_nth _ _ [] Esi), (nth_error_nth _ _ [] Esf).
  assert (Hnd : NoDup si).
  { rewrite <- (nth_error_nth _ _ [] Esi). now apply valid_NoDup_nth. }
  unfold set_add. destruct (memb_spec k sf); [contradiction|].
  rewrite block_insert, block_remove, sum_Sto_eq, sum_Sout_eq by assumption. ring.
Qed.

(** * A visit *)
Lemma potential_spec setord neighs p node ci :
  is_iteration_order setord -> valid p -> neighs_in_range (num_nodes p) neighs ->
  dget (n2c p) node = Some ci ->
  exists comms, potential_new_clusters setord neighs p node = Some comms /\
    forall c, In c comms -> c <> ci /\ c < length (cluster_list p) /\
      exists y, In y (neighs node) /\ dget (n2c p) y = Some c.
Proof.
  intros Hso Hv Hr Hci. unfold potential_new_clusters. rewrite Hci.
  assert (Hn : node < num_nodes p) by (eapply valid_dget_node; eauto).
  assert (H : forall l, (forall y, In y l -> In y (neighs node)) ->
     exists s, fold_right (fun x acc => match acc, dget (n2c p) x with
               | Some s, Some c => Some (set_add c s) | _, _ => None end) (Some []) l = Some s /\
     forall c, In c s -> exists y, In y (neighs node) /\ dget (n2c p) y = Some c).
  { induction l as [|y l IH]; intros Hl; simpl.
    - exists []. split; [reflexivity|]. intros c [].
    - destruct IH as (s & Hs & Hin); [intros z Hz; apply Hl; right; exact Hz|]. rewrite Hs.
      assert (Hy : In y (neighs node)) by (apply Hl; left; reflexivity).
      destruct (valid_node_dget p y Hv (Hr node y Hn Hy)) as [c Hc]. rewrite Hc.
      exists (set_add c s). split; [reflexivity|]. intros d Hd. apply set_add_In in Hd.
      destruct Hd as [->|Hd]; eauto. }
  destruct (H (neighs node)) as (s & Hs & Hin); [auto|]. rewrite Hs.
  exists (setord (rem ci s)). split; [reflexivity|]. intros c Hc.
  apply (Permutation_in _ (Hso (rem ci s))) in Hc. apply rem_In in Hc.
  destruct Hc as [Hc Hne]. destruct (Hin c Hc) as (y & Hy & Hd).
  split; [exact Hne|]. split; [eapply valid_dget_lt; eauto|eauto].
Qed.

Lemma moveto_some M p node ci cf :
  valid p -> dget (n2c p) node = Some ci -> cf <> ci -> cf < length (cluster_list p) ->
  exists r, delta_moveto M p node cf = Some r.
Proof.
  intros Hv Hci Hne Hl. unfold delta_moveto.
  destruct (nth_error (cluster_list p) cf) as [s|] eqn:E.
  2:{ apply nth_error_None in E. lia. }
  destruct (memb_spec node s) as [Hin|]; [|eauto]. exfalso. apply Hne.
  assert (Hc : dget (n2c p) node = Some cf) by (apply Hv; exists s; auto). congruence.
Qed.
Lemma moveout_some M p node ci :
  valid p -> dget (n2c p) node = Some ci ->
  exists r, delta_moveout M p node ci = Some r.
Proof.
  intros Hv Hci. unfold delta_moveout. apply Hv in Hci. destruct Hci as (s & Hs & Hin).
  rewrite Hs. destruct (memb_spec node s); [eauto|contradiction].
Qed.

Lemma best_move_spec M p node ci r_out comms :
  valid p -> dget (n2c p) node = Some ci ->
  (forall c, In c comms -> c <> ci /\ c < length (cluster_list p)) ->
  exists db cb, best_move M p node ci r_out comms = Some (db, cb) /\
    (0 <= db)%num /\
    ((cb = ci /\ db = 0%num) \/
     (In cb comms /\ exists ri, delta_moveto M p node cb = Some ri /\ db = (r_out + ri)%num)) /\
    (forall c ri, In c comms -> delta_moveto M p node c = Some ri -> (r_out + ri <= db)%num).
Proof.
  intros Hv Hci Hall. unfold best_move.
  assert (H : forall l db0 cb0, (forall c, In c l -> In c comms) ->
    exists db cb,
      fold_left (fun best c_f =>
        match best with
        | None => None
        | Some (db, cb) =>
            if Nat.eqb c_f ci then best
            else match delta_moveto M p node c_f with
                 | None => None
                 | Some r_in =>
                     let delta_r := (r_out + r_in)%num in
                     if qleb db delta_r then Some (delta_r, c_f) else Some (db, cb)
                 end
        end) l (Some (db0, cb0)) = Some (db, cb) /\
      (db0 <= db)%num /\
      ((db = db0 /\ cb = cb0) \/
       (In cb l /\ exists ri, delta_moveto M p node cb = Some ri /\ db = (r_out + ri)%num)) /\
      (forall c ri, In c l -> delta_moveto M p node c = Some ri -> (r_out + ri <= db)%num)).
  { induction l as [|c l IH]; intros db0 cb0 Hl.
    - exists db0, cb0. split; [reflexivity|]. split; [apply Qcle_refl|]. split; [left; auto|].
      intros c ri [].
    - destruct (Hall c (Hl c (or_introl eq_refl))) as [Hne Hlt].
      destruct (moveto_some M p node ci c Hv Hci Hne Hlt) as [r Hr].
      assert (Hl' : forall c0, In c0 l -> In c0 comms) by (intros c0 H0; apply Hl; right; exact H0).
      cbn [fold_left]. destruct (Nat.eqb_spec c ci) as [|_]; [contradiction|]. rewrite Hr.
      cbv zeta. destruct (qleb_spec db0 (r_out + r)%num) as [Hle|Hnle].
      + destruct (IH (r_out + r)%num c Hl') as (db & cb & Hf & Hge & Hcase & Hmax).
        exists db, cb. split; [exact Hf|]. split; [eapply Qcle_trans; eauto|]. split.
        * right. destruct Hcase as [[-> ->]|[Hin Hx]].
          -- split; [left; reflexivity|]. exists r. auto.
          -- split; [right; exact Hin|exact Hx].
        * intros c1 ri [->|Hc1] Hri; [|eauto]. rewrite Hr in Hri. injection Hri as <-. exact Hge.
      + destruct (IH db0 cb0 Hl') as (db & cb & Hf & Hge & Hcase & Hmax).
        exists db, cb. split; [exact Hf|]. split; [exact Hge|]. split.
        * destruct Hcase as [Hc|[Hin Hx]]; [left; exact Hc|right; split; [right; exact Hin|exact Hx]].
        * intros c1 ri [->|Hc1] Hri; [|eauto]. rewrite Hr in Hri. injection Hri as <-.
          apply Qcnot_le_lt in Hnle. eapply Qcle_trans; [apply Qclt_le_weak; exact Hnle|exact Hge]. }
  destruct (H comms 0%num ci) as (db & cb & Hf & Hge & Hcase & Hmax); [auto|].
  exists db, cb. split; [exact Hf|]. split; [exact Hge|]. split; [|exact Hmax].
  destruct Hcase as [[-> ->]|Hx]; [left; auto|right; exact Hx].
Qed.

Lemma visit_spec setord M neighs p node :
  is_iteration_order setord -> valid p -> neighs_in_range (num_nodes p) neighs ->
  node < num_nodes p ->
  exists p' g, visit setord M neighs p node = Some (p', g) /\
    valid p' /\ num_nodes p' = num_nodes p /\ (0 <= g)%num /\
    compute_stability M p' = (compute_stability M p + g)%num.
Proof.
  intros Hso Hv Hr Hn. unfold visit.
  destruct (valid_node_dget p node Hv Hn) as [ci Hci]. rewrite Hci.
  destruct (moveout_some M p node ci Hv Hci) as [ro Hro]. rewrite Hro.
  destruct (potential_spec setord neighs p node ci Hso Hv Hr Hci) as (comms & Hcm & Hcomms).
  rewrite Hcm.
  destruct (best_move_spec M p node ci ro comms Hv Hci) as (db & cb & Hb & Hpos & Hcase & _).
  { intros c Hc. destruct (Hcomms c Hc) as [H1 [H2 _]]. auto. }
  rewrite Hb. destruct (Nat.eqb_spec cb ci) as [->|Hne].
  - exists p, 0%num. split; [reflexivity|]. split; [exact Hv|]. split; [reflexivity|].
    split; [apply Qcle_refl|ring].
  - destruct Hcase as [[? _]|[Hin (ri & Hri & Hdb)]]; [contradiction|].
    destruct (Hcomms cb Hin) as [_ [Hlt _]].
    destruct (move_node_valid p node cb Hv Hn Hlt) as (p' & Hm & Hv').
    rewrite Hm. exists p', db. split; [reflexivity|]. split; [exact Hv'|].
    split; [apply (move_node_done_valid _ _ _ _ Hv Hm)|]. split; [exact Hpos|].
    rewrite Hdb. eapply delta_exact; eauto.
Qed.

Lemma sweep_spec setord M neighs order p :
  is_iteration_order setord -> valid p -> neighs_in_range (num_nodes p) neighs ->
  order_in_range (num_nodes p) order ->
  exists p' d, sweep setord M neighs order p = Some (p', d) /\
    valid p' /\ num_nodes p' = num_nodes p /\ (0 <= d)%num /\
    compute_stability M p' = (compute_stability M p + d)%num.
Proof.
  intros Hso Hv Hr Ho. unfold sweep.
  assert (H : forall l q d0, (forall x, In x l -> x < num_nodes p) ->
    valid q -> num_nodes q = num_nodes p -> (0 <= d0)%num ->
    compute_stability M q = (compute_stability M p + d0)%num ->
    exists p' d,
      fold_left (fun acc node => match acc with None => None | Some (q, d) =>
        match visit setord M neighs q node with
        | None => None | Some (q', g) => Some (q', (d + g)%num) end end) l (Some (q, d0)) = Some (p', d) /\
      valid p' /\ num_nodes p' = num_nodes p /\ (0 <= d)%num /\
      compute_stability M p' = (compute_stability M p + d)%num).
  { induction l as [|x l IH]; intros q d0 Hl Hq Hn Hd Hs.
    - exists q, d0. simpl. auto.
    - cbn [fold_left]. destruct (visit_spec setord M neighs q x) as (q' & g & Hvis & Hq' & Hn' & Hg & Hs').
      + exact Hso.
      + exact Hq.
      + now rewrite Hn.
      + rewrite Hn. apply Hl. left. reflexivity.
      + rewrite Hvis. apply IH.
        * intros y Hy. apply Hl. right. exact Hy.
        * exact Hq'.
        * congruence.
        * revert Hd Hg. generalize d0 g. qlra.
        * rewrite Hs', Hs. ring. }
  apply H; auto; [apply Qcle_refl|ring].
Qed.

Lemma sweeps_spec setord M neighs orders thr nmax :
  is_iteration_order setord ->
  forall fuel p dl dt nl, valid p -> neighs_in_range (num_nodes p) neighs ->
  (forall k, order_in_range (num_nodes p) (orders k)) ->
  (0 <= dt)%num -> nmax <= fuel + nl ->
  exists p' d n', sweeps fuel setord M neighs orders thr nmax p dl dt nl = MDone p' d n' /\
    valid p' /\ num_nodes p' = num_nodes p /\ no_empty (cluster_list p') /\ (dt <= d)%num /\
    compute_stability M p' = (compute_stability M p + (d - dt))%num /\
    n' <= Nat.max nl nmax.
Proof.
  intros Hso. induction fuel as [|fuel IH]; intros p dl dt nl Hv Hr Ho Hdt Hf; simpl.
  - destruct (Nat.ltb_spec nl nmax) as [Hlt|Hlt]; [lia|]. rewrite andb_false_r.
    eexists _, _, _. split; [reflexivity|]. split; [now apply remove_empty_valid|].
    split; [reflexivity|]. split; [apply remove_empty_no_empty|]. split; [apply Qcle_refl|].
    split; [rewrite stability_remove_empty; ring|lia].
  - destruct (qltb thr dl && (nl <? nmax)) eqn:E.
    + apply andb_true_iff in E. destruct E as [_ E]. apply Nat.ltb_lt in E.
      destruct (sweep_spec setord M neighs (orders nl) p Hso Hv Hr (Ho nl))
        as (p1 & d & Hs & Hv1 & Hn1 & Hd & Hst).
      rewrite Hs.
      destruct (IH p1 d (dt + d)%num (S nl)) as (p' & d' & n' & H1 & H2 & H3 & H4 & H5 & H6 & H7).
      * exact Hv1.
      * now rewrite Hn1.
      * now rewrite Hn1.
      * revert Hdt Hd. generalize dt d. qlra.
      * lia.
      * exists p', d', n'. split; [exact H1|]. split; [exact H2|]. split; [congruence|].
        split; [exact H4|]. split; [|split].
        -- revert H5 Hd. generalize dt d d'. qlra.
        -- rewrite H6, Hst. ring.
        -- lia.
    + eexists _, _, _. split; [reflexivity|]. split; [now apply remove_empty_valid|].
      split; [reflexivity|]. split; [apply remove_empty_no_empty|]. split; [apply Qcle_refl|].
      split; [rewrite stability_remove_empty; ring|lia].
Qed.

Lemma move_phase_spec setord M neighs orders thr nmax p :
  is_iteration_order setord -> valid p -> neighs_in_range (num_nodes p) neighs ->
  (forall k, order_in_range (num_nodes p) (orders k)) ->
  exists p' d n', louvain_move_nodes setord M neighs orders thr nmax p = MDone p' d n' /\
    valid p' /\ num_nodes p' = num_nodes p /\ no_empty (cluster_list p') /\ (0 <= d)%num /\
    compute_stability M p' = (compute_stability M p + d)%num /\ n' <= Nat.max 1 nmax.
Proof.
  intros Hso Hv Hr Ho. unfold louvain_move_nodes.
  destruct (sweeps_spec setord M neighs orders thr nmax Hso nmax p 1%num 0%num 1 Hv Hr Ho)
    as (p' & d & n' & H1 & H2 & H3 & H4 & H5 & H6 & H7); [apply Qcle_refl|lia|].
  exists p', d, n'. repeat (split; [assumption|]). split; [|exact H7].
  rewrite H6. ring.
Qed.

(** * Aggregation *)
Lemma nth_map_seq_default {A} (f : nat -> A) n i d : i < n -> nth i (map f (seq 0 n)) d = f i.
Proof.
  intros H. rewrite (nth_indep _ _ (f 0)) by (rewrite map_length, seq_length; exact H).
  rewrite map_nth, seq_nth by exact H. reflexivity.
Qed.

(** clusters of original nodes denoted by clusters of meta nodes *)
Definition expand (cl mcl : list (list nat)) : list (list nat) :=
  map (fun mc => concat (map (fun a => nth a cl []) mc)) mcl.

Lemma aggregate_block M p a b :
  block (aggregate M p) a b =
  block M (concat (map (fun x => nth x (cluster_list p) []) a))
          (concat (map (fun x => nth x (cluster_list p) []) b)).
Proof.
  rewrite block_concat, sumL_map. unfold block at 1. apply sumL_ext. intros i _.
  rewrite sumL_map. apply sumL_ext. intros j _. reflexivity.
Qed.
Lemma aggregate_stability M p mp :
  compute_stability (aggregate M p) mp =
  sumL (fun c => block M c c) (expand (cluster_list p) (cluster_list mp)).
Proof.
  rewrite stability_eq. unfold expand. rewrite sumL_map. apply sumL_ext.
  intros c _. apply aggregate_block.
Qed.

(** the dictionary built by [_get_updated_partition] *)
Definition upd_dict_step (mn : partition) (acc : option dict) (ic : nat * list nat) : option dict :=
  match acc with
  | None => None
  | Some d =>
      match dget (n2c mn) (fst ic) with
      | None => match snd ic with [] => Some d | _ => None end
      | Some c => Some (fold_left (fun d x => dset d x c) (snd ic) d)
      end
  end.

Lemma upd_dict_spec mn cl : forall s d,
  (forall i, i < length cl -> exists c, dget (n2c mn) (s + i) = Some c) ->
  (forall a b x, in_cluster cl a x -> in_cluster cl b x -> a = b) ->
  NoDup (keys d) ->
  exists d', fold_left (upd_dict_step mn) (combine (seq s (length cl)) cl) (Some d) = Some d' /\
    NoDup (keys d') /\
    forall x c, dget d' x = Some c <->
      (exists i, in_cluster cl i x /\ dget (n2c mn) (s + i) = Some c) \/
      ((forall i, ~ in_cluster cl i x) /\ dget d x = Some c).
Proof.
  induction cl as [|c0 cl IH]; intros s d Hc Hdis Hnd; simpl.
  - exists d. split; [reflexivity|]. split; [exact Hnd|]. intros x c. split.
    + intros H. right. split; [intros i; apply in_cluster_nil|exact H].
    + intros [[i [H _]]|[_ H]]; [destruct (in_cluster_nil _ _ H)|exact H].
  - destruct (Hc 0) as [c1 Hc1]; [simpl; lia|]. rewrite Nat.add_0_r in Hc1. rewrite Hc1.
    assert (Hdis' : forall a b x, in_cluster cl a x -> in_cluster cl b x -> a = b).
    { intros a b y Ha Hb. assert (S a = S b) by (apply (Hdis (S a) (S b) y); assumption). lia. }
    destruct (IH (S s) (fold_left (fun d x => dset d x c1) c0 d)) as (d' & Hf & Hnd' & Hspec).
    + intros i Hi. replace (S s + i) with (s + S i) by lia. apply Hc. simpl. lia.
    + exact Hdis'.
    + clear - Hnd. revert d Hnd. induction c0 as [|y c0 IHc]; intros d Hnd; simpl; [exact Hnd|].
      apply IHc. now apply keys_dset_NoDup.
    + exists d'. split; [exact Hf|]. split; [exact Hnd'|]. intros x c. rewrite Hspec, dget_fold_set. split.
      * intros [[i [Hi He]]|[Hno He]].
        -- left. exists (S i). split; [exact Hi|]. replace (s + S i) with (S s + i) by lia. exact He.
        -- destruct (memb_spec x c0) as [Hin|Hin].
           ++ left. exists 0. split; [now apply in_cluster_0|]. rewrite Nat.add_0_r. congruence.
           ++ right. split; [|exact He]. intros [|i]; [rewrite in_cluster_0; exact Hin|apply Hno].
      * intros [[i [Hi He]]|[Hno He]].
        -- destruct i as [|i].
           ++ right. rewrite Nat.add_0_r in He. apply in_cluster_0 in Hi. split.
              ** intros j Hj. assert (0 = S j); [|lia].
                 apply (Hdis 0 (S j) x); [now apply in_cluster_0|exact Hj].
              ** destruct (memb_spec x c0); [congruence|contradiction].
           ++ left. exists i. split; [exact Hi|]. replace (S s + i) with (s + S i) by lia. exact He.
        -- right. split; [intros i; apply (Hno (S i))|].
           destruct (memb_spec x c0) as [Hin|]; [|exact He].
           destruct (Hno 0). now apply in_cluster_0.
Qed.

Lemma expand_in_cluster cl mcl j x :
  in_cluster (expand cl mcl) j x <-> exists a, in_cluster mcl j a /\ In x (nth a cl []).
Proof.
  unfold in_cluster, expand. rewrite nth_error_map. split.
  - intros [c [Hc Hin]]. destruct (nth_error mcl j) as [mc|]; [|discriminate].
    simpl in Hc. injection Hc as <-. apply in_concat in Hin. destruct Hin as [l [Hl Hx]].
    apply in_map_iff in Hl. destruct Hl as [a [<- Ha]]. exists a. split; [exists mc; auto|exact Hx].
  - intros [a [[mc [Hmc Ha]] Hx]]. rewrite Hmc. eexists. split; [reflexivity|].
    apply in_concat. exists (nth a cl []). split; [|exact Hx]. apply in_map_iff. exists a. auto.
Qed.

Lemma expand_partitions n cl mcl :
  partitions n cl -> partitions (length cl) mcl -> partitions n (expand cl mcl).
Proof.
  intros H Hm. apply partitions_perm. apply partitions_perm in H, Hm.
  apply (Permutation_trans (l' := concat cl)); [|exact H].
  unfold expand.
  assert (E : concat (map (fun mc => concat (map (fun a => nth a cl []) mc)) mcl)
            = concat (map (fun a => nth a cl []) (concat mcl))).
  { clear. induction mcl as [|c mcl IH]; simpl; [reflexivity|].
    rewrite IH, map_app, concat_app. reflexivity. }
  rewrite E.
  replace (concat cl) with (concat (map (fun a => nth a cl []) (seq 0 (length cl))))
    by now rewrite map_nth_seq.
  rewrite <- !flat_map_concat_map.
  now apply Permutation_flat_map.
Qed.

Lemma same_sets_stability M cl1 cl2 :
  Forall (@NoDup nat) cl1 -> Forall (@NoDup nat) cl2 -> same_sets cl1 cl2 ->
  sumL (fun c => block M c c) cl1 = sumL (fun c => block M c c) cl2.
Proof.
  intros H1 H2 Hs. revert H1 H2. induction Hs as [|a b cl1 cl2 Hab _ IH]; intros H1 H2; [reflexivity|].
  apply Forall_cons_iff in H1, H2. simpl.
  assert (HP : Permutation a b) by (apply NoDup_perm_set; tauto).
  rewrite (block_perm M a b a b HP HP), IH by tauto. reflexivity.
Qed.

Lemma updated_partition_spec p mp :
  valid p -> no_empty (cluster_list p) -> valid mp -> no_empty (cluster_list mp) ->
  num_nodes mp = length (cluster_list p) -> 0 < num_nodes p ->
  exists p', updated_partition p mp = Some p' /\ valid p' /\ no_empty (cluster_list p') /\
    num_nodes p' = num_nodes p /\
    same_sets (cluster_list p') (expand (cluster_list p) (cluster_list mp)).
Proof.
  intros Hv Hne Hvm Hnem Hlen Hpos. unfold updated_partition.
  pose proof (remove_empty_valid mp Hvm) as Hvm'.
  assert (Ecl : cluster_list (remove_empty_clusters p) = cluster_list p)
    by (simpl; apply filter_nonempty_id; exact Hne).
  assert (Emcl : cluster_list (remove_empty_clusters mp) = cluster_list mp)
    by (simpl; apply filter_nonempty_id; exact Hnem).
  rewrite Ecl.
  destruct (upd_dict_spec (remove_empty_clusters mp) (cluster_list p) 0 []) as (d & Hf & Hnd & Hd).
  - intros i Hi. apply valid_node_dget; [exact Hvm'|]. simpl. lia.
  - apply Hv.
  - constructor.
  - cbv zeta. change (num_nodes (remove_empty_clusters p)) with (num_nodes p).
    match goal with |- exists p', match ?X with _ => _ end = _ /\ _ =>
      replace X with (Some d) by (symmetry; exact Hf) end.
    assert (Hd' : forall x c, dget d x = Some c <-> in_cluster (expand (cluster_list p) (cluster_list mp)) c x).
    { intros x c. rewrite Hd, expand_in_cluster. simpl. split.
      - intros [[i [Hi He]]|[_ He]]; [|discriminate]. exists i. split.
        + rewrite <- Emcl. apply Hvm'. exact He.
        + apply in_cluster_nth in Hi. tauto.
      - intros [a [Ha Hx]]. left. exists a. split.
        + apply in_cluster_nth. split; [|exact Hx].
          destruct (lt_dec a (length (cluster_list p))) as [|Hge]; [assumption|].
          rewrite nth_overflow in Hx by lia. destruct Hx.
        + apply Hvm'. rewrite Emcl. exact Ha. }
    assert (Hexp : partitions (num_nodes p) (expand (cluster_list p) (cluster_list mp))).
    { apply expand_partitions; [apply Hv|]. rewrite <- Hlen. apply Hvm. }
    assert (Hcov : dict_covers (num_nodes p) d).
    { split; [exact Hnd|]. intros x. rewrite dget_some_key. destruct Hexp as [_ [_ Hc]].
      rewrite Hc. split; intros [i Hi]; exists i; now apply Hd'. }
    unfold part_of_dict. destruct (dict_max d) as [m|] eqn:Em.
    2:{ destruct d; [|discriminate]. destruct Hcov as [_ Hc]. destruct (proj1 (Hc 0) Hpos). }
    eexists. split; [reflexivity|].
    assert (Hm : forall kv, In kv d -> snd kv <= m) by (intros kv; now apply dict_max_ge).
    split; [apply remove_empty_valid_gen; now apply lists_of_dict_partitions|].
    split; [apply remove_empty_no_empty|]. split; [reflexivity|]. simpl.
    assert (Hexpne : no_empty (expand (cluster_list p) (cluster_list mp))).
    { unfold no_empty, expand in *. rewrite Forall_map, Forall_forall. intros mc Hmc.
      rewrite Forall_forall in Hnem. specialize (Hnem mc Hmc). destruct mc as [|a mc]; [contradiction|].
      simpl. assert (Ha : a < length (cluster_list p)).
      { rewrite <- Hlen. destruct (In_nth_error _ _ Hmc) as [i Hi].
        apply Hvm. exists i, (a :: mc). split; [exact Hi|left; reflexivity]. }
      rewrite Forall_forall in Hne. specialize (Hne (nth a (cluster_list p) []) (nth_In _ _ Ha)).
      destruct (nth a (cluster_list p) []); [contradiction|discriminate]. }
    rewrite <- (filter_nonempty_id _ Hexpne). apply same_sets_pad.
    intros i x. rewrite lists_of_dict_spec by assumption. apply Hd'.
Qed.

Lemma updated_stability M p mp p' :
  valid p -> no_empty (cluster_list p) -> valid mp -> no_empty (cluster_list mp) ->
  num_nodes mp = length (cluster_list p) -> 0 < num_nodes p ->
  updated_partition p mp = Some p' ->
  compute_stability M p' = compute_stability (aggregate M p) mp.
Proof.
  intros Hv Hne Hvm Hnem Hlen Hpos Hu.
  destruct (updated_partition_spec p mp Hv Hne Hvm Hnem Hlen Hpos) as (q & Hq & Hvq & _ & _ & Hss).
  assert (q = p') by congruence. subst q. rewrite aggregate_stability, stability_eq.
  apply same_sets_stability; [apply Hvq| |exact Hss].
  apply (expand_partitions (num_nodes p)); [apply Hv|]. rewrite <- Hlen. apply Hvm.
Qed.

(** * The levels *)
Lemma neighs_of_range n T : neighs_in_range n (neighs_of n T).
Proof. intros x y _ Hy. apply filter_In in Hy. apply seq_In_iff. tauto. Qed.

Lemma stability_ext M M' p : valid p ->
  (forall i j, i < num_nodes p -> j < num_nodes p -> M i j = M' i j) ->
  compute_stability M p = compute_stability M' p.
Proof.
  intros Hv H. rewrite !stability_eq. apply sumL_ext. intros c Hc. apply block_ext.
  assert (Hr : forall x, In x c -> x < num_nodes p).
  { intros x Hx. apply Hv. apply in_cluster_concat. apply in_concat. exists c. auto. }
  auto.
Qed.

Lemma shuffles_in_range orders level n : shuffles orders ->
  forall k, order_in_range n (orders level k n).
Proof.
  intros H k x Hx. apply seq_In_iff. eapply Permutation_in; [apply H|exact Hx].
Qed.

Lemma default_no_empty n : no_empty (cluster_list (part_default n)).
Proof. apply remove_empty_no_empty. Qed.

Lemma aggregate_default_stability M p :
  compute_stability (aggregate M p) (part_default (length (cluster_list p))) = compute_stability M p.
Proof.
  rewrite aggregate_stability, default_clusters, stability_eq. unfold expand.
  rewrite map_map. simpl. rewrite sumL_map. rewrite (sumL_nth (cluster_list p) _ []).
  apply sumL_ext. intros i _. rewrite app_nil_r. reflexivity.
Qed.

(** invariant of the loop: [mS] is the aggregation of [S0] by the current clusters
    and the meta partition is the one-meta-node-per-cluster one *)
Lemma meta_loop_spec setord orders T0 S0 thr nmeta nsub :
  is_iteration_order setord -> shuffles orders ->
  forall fuel p mT mS mp delta nm stop,
  valid p -> no_empty (cluster_list p) -> 0 < num_nodes p ->
  (stop = false ->
     mp = part_default (length (cluster_list p)) /\
     forall a b, a < length (cluster_list p) -> b < length (cluster_list p) ->
       mS a b = aggregate S0 p a b) ->
  nmeta + 1 < fuel + nm -> nm <= nmeta + 1 ->
  (exists p' n', meta_loop fuel setord orders T0 S0 thr nmeta nsub p mT mS mp delta nm stop = LDone p' n'
     /\ valid p' /\ no_empty (cluster_list p') /\ num_nodes p' = num_nodes p /\
     (compute_stability S0 p <= compute_stability S0 p')%num /\ nm <= n' <= nmeta + 1) \/
  (exists p', meta_loop fuel setord orders T0 S0 thr nmeta nsub p mT mS mp delta nm stop = LRaised p'
     /\ valid p' /\ no_empty (cluster_list p') /\ num_nodes p' = num_nodes p /\
     (compute_stability S0 p <= compute_stability S0 p')%num /\
     rows_nonzero (length (cluster_list p')) (aggregate T0 p') = false).
Proof.
  intros Hso Hsh. induction fuel as [|fuel IH]; intros p mT mS mp delta nm stop Hv Hne Hpos Hmeta Hf Hnm; [lia|].
  cbn [meta_loop]. destruct (negb (qleb delta thr || stop || (nmeta <? nm))) eqn:E.
  2:{ left. exists p, nm. split; [reflexivity|]. repeat (split; [assumption || reflexivity|]).
      split; [apply Qcle_refl|lia]. }
  apply negb_true_iff in E. apply orb_false_iff in E. destruct E as [E E3].
  apply orb_false_iff in E. destruct E as [_ E2]. apply Nat.ltb_ge in E3.
  destruct (Hmeta E2) as [Hmp HmS]. subst mp.
  set (k := length (cluster_list p)) in *.
  assert (Hvk : valid (part_default k)) by apply default_valid.
  destruct (move_phase_spec setord mS (neighs_of (num_nodes (part_default k)) mT)
              (fun q => orders (S nm) q (num_nodes (part_default k))) thr nsub (part_default k))
    as (mp' & d & n' & Hmv & Hvm & Hnm' & Hnem & Hd & Hst & _).
  - exact Hso.
  - exact Hvk.
  - apply neighs_of_range.
  - intros q. now apply shuffles_in_range.
  - rewrite Hmv.
    assert (Hnk : num_nodes mp' = k) by (rewrite Hnm'; reflexivity).
    destruct (updated_partition_spec p mp' Hv Hne Hvm Hnem Hnk Hpos)
      as (p1 & Hu & Hv1 & Hne1 & Hn1 & _).
    rewrite Hu.
    assert (Hs1 : compute_stability S0 p1 = (compute_stability S0 p + d)%num).
    { rewrite (updated_stability S0 p mp' p1) by assumption.
      rewrite (stability_ext (aggregate S0 p) mS mp') by
        (try exact Hvm; intros i j Hi Hj; symmetry; apply HmS; lia).
      rewrite Hst. f_equal. rewrite <- (aggregate_default_stability S0 p).
      apply stability_ext; [exact Hvk|]. intros i j Hi Hj. apply HmS; assumption. }
    assert (Hge : (compute_stability S0 p <= compute_stability S0 p1)%num).
    { rewrite Hs1. revert Hd. generalize (compute_stability S0 p) d. qlra. }
    destruct (all_singletons p1 || (nmeta <? S nm) || qleb d thr) eqn:Estop.
    + destruct (IH p1 mT mS mp' d (S nm) true) as [(p2 & n2 & H1 & H2 & H3 & H4 & H5 & H6)|(p2 & H1 & H2 & H3 & H4 & H5 & H6)];
        try assumption; try lia; try discriminate.
      * left. exists p2, n2. split; [exact H1|]. split; [exact H2|]. split; [exact H3|]. split; [congruence|].
        split; [eapply Qcle_trans; eauto|lia].
      * right. exists p2. split; [exact H1|]. split; [exact H2|]. split; [exact H3|]. split; [congruence|].
        split; [eapply Qcle_trans; eauto|exact H6].
    + cbv zeta. destruct (rows_nonzero (length (cluster_list p1)) (aggregate T0 p1)) eqn:Er.
      * destruct (IH p1 (row_normalised (length (cluster_list p1)) (aggregate T0 p1)) (aggregate S0 p1)
             (part_default (length (cluster_list p1))) d (S nm) false)
          as [(p2 & n2 & H1 & H2 & H3 & H4 & H5 & H6)|(p2 & H1 & H2 & H3 & H4 & H5 & H6)];
          try assumption; try lia.
        -- intros _. split; [reflexivity|auto].
        -- left. exists p2, n2. split; [exact H1|]. split; [exact H2|]. split; [exact H3|]. split; [congruence|].
           split; [eapply Qcle_trans; eauto|lia].
        -- right. exists p2. split; [exact H1|]. split; [exact H2|]. split; [exact H3|]. split; [congruence|].
           split; [eapply Qcle_trans; eauto|exact H6].
      * right. exists p1. split; [reflexivity|]. repeat (split; [assumption|]). exact Er.
Qed.

Lemma default_aggregate_entry M n a b : a < n -> b < n ->
  aggregate M (part_default n) a b = M a b.
Proof.
  intros Ha Hb. unfold aggregate. rewrite default_clusters, !nth_map_seq_default by assumption.
  unfold block. simpl. ring.
Qed.
Lemma default_length n : length (cluster_list (part_default n)) = n.
Proof. rewrite default_clusters, map_length, seq_length. reflexivity. Qed.

Lemma part_of_list_default n : part_of_list n (cluster_list (part_default n)) = part_default n.
Proof.
  unfold part_of_list, part_default, remove_empty_clusters. cbn [cluster_list num_nodes].
  rewrite !filter_nonempty_singletons. reflexivity.
Qed.

Lemma find_louvain_spec setord orders T S thr nmeta nsub n :
  is_iteration_order setord -> shuffles orders -> 0 < n -> S_is_zero n S = false ->
  (exists p' n', find_louvain setord orders T S thr nmeta nsub (part_default n) = LDone p' n' /\
     valid p' /\ no_empty (cluster_list p') /\ num_nodes p' = n /\
     (compute_stability S (part_default n) <= compute_stability S p')%num /\ n' <= nmeta + 1) \/
  (exists p', find_louvain setord orders T S thr nmeta nsub (part_default n) = LRaised p' /\
     valid p' /\ no_empty (cluster_list p') /\ num_nodes p' = n /\
     (compute_stability S (part_default n) <= compute_stability S p')%num /\
     rows_nonzero (length (cluster_list p')) (aggregate T p') = false).
Proof.
  intros Hso Hsh Hn Hz. unfold find_louvain. change (num_nodes (part_default n)) with n.
  destruct (Nat.eqb_spec n 0) as [->|_]; [lia|]. rewrite Hz, part_of_list_default.
  destruct (meta_loop_spec setord orders T S thr nmeta nsub Hso Hsh
     (Datatypes.S (Datatypes.S nmeta)) (part_default n) T S (part_default n) 1%num 0 false)
    as [(p' & n' & H1 & H2 & H3 & H4 & H5 & H6)|(p' & H1 & H2 & H3 & H4 & H5 & H6)].
  - apply default_valid.
  - apply default_no_empty.
  - exact Hn.
  - intros _. rewrite default_length. split; [reflexivity|].
    intros a b Ha Hb. symmetry. now apply default_aggregate_entry.
  - lia.
  - lia.
  - left. exists p', n'. split; [exact H1|]. repeat (split; [assumption|]). lia.
  - right. exists p'. split; [exact H1|]. repeat (split; [assumption|]). exact H6.
Qed.

Lemma aggregate_row_sum n T p s : valid p -> num_nodes p = n ->
  sumN (length (cluster_list p)) (aggregate T p s)
     = sumL (fun i => sumN n (T i)) (nth s (cluster_list p) []).
Proof.
  intros Hv Hn. unfold sumN at 1. unfold aggregate, block.
  rewrite sumL_swap. apply sumL_ext. intros i _.
  rewrite <- (sumL_map (fun t => nth t (cluster_list p) []) (fun c => sumL (fun j => T i j) c)).
  rewrite map_nth_seq, <- sumL_concat. unfold sumN. apply sumL_perm.
  rewrite <- Hn. now apply valid_perm.
Qed.
(** T non-negative without zero rows: the aggregated rows cannot vanish *)
Lemma rows_nonzero_agg n T p :
  valid p -> no_empty (cluster_list p) -> num_nodes p = n ->
  (forall i j, i < n -> j < n -> (0 <= T i j)%num) ->
  (forall i, i < n -> (0 < sumN n (T i))%num) ->
  rows_nonzero (length (cluster_list p)) (aggregate T p) = true.
Proof.
  intros Hv Hne Hn Hnn Hrow. unfold rows_nonzero. apply forallb_forall. intros s Hs.
  apply seq_In_iff in Hs. apply negb_true_iff. destruct (qeqb_spec (sumN (length (cluster_list p)) (aggregate T p s)) 0%num) as [E|]; [|reflexivity].
  exfalso.
  pose proof (aggregate_row_sum n T p s Hv Hn) as Hsum.
  assert (Hr : forall x, In x (nth s (cluster_list p) []) -> x < n).
  { intros x Hx. rewrite <- Hn. apply Hv. exists s. apply in_cluster_nth. auto. }
  unfold no_empty in Hne. rewrite Forall_forall in Hne.
  specialize (Hne (nth s (cluster_list p) []) (nth_In _ _ Hs)).
  rewrite Hsum in E. destruct (nth s (cluster_list p) []) as [|x c]; [contradiction|].
  pose proof (sumL_nonneg_zero (fun i => sumN n (T i)) (x :: c)) as Hz.
  assert (Hx : sumN n (T x) = 0%num).
  { apply Hz; [|exact E|left; reflexivity]. intros b Hb. apply Qclt_le_weak, Hrow, Hr, Hb. }
  specialize (Hrow x (Hr x (or_introl eq_refl))). rewrite Hx in Hrow.
  revert Hrow. apply Qcle_not_lt, Qcle_refl.
Qed.

(** * The specification of stability *)
Lemma existsb_memb_app (f : list nat -> bool) a b : existsb f (a ++ b) = existsb f a || existsb f b.
Proof. apply existsb_app. Qed.

Lemma sameb_together p i j : sameb p i j = true <-> together p i j.
Proof.
  unfold sameb. rewrite existsb_exists, together_iff. split.
  - intros (c & Hc & H). apply andb_true_iff in H. rewrite !memb_In in H. exists c. tauto.
  - intros (c & Hc & H1 & H2). exists c. split; [exact Hc|]. apply andb_true_iff. rewrite !memb_In. auto.
Qed.

(** sum over the pairs sharing a cluster = sum over clusters of blocks *)
Lemma pairs_blocks (M : mat) cl : NoDup (concat cl) ->
  sumL (fun i => sumL (fun j => if existsb (fun c => memb i c && memb j c) cl then M i j else 0%num)
          (concat cl)) (concat cl)
  = sumL (fun c => block M c c) cl.
Proof.
  intros Hnd.
  assert (H : forall i j, (if existsb (fun c => memb i c && memb j c) cl then M i j else 0%num)
            = sumL (fun c => if memb i c && memb j c then M i j else 0%num) cl).
  { intros i j. apply NoDup_concat_iff in Hnd. destruct Hnd as [_ Hd].
    assert (Hd' : forall a b, in_cluster cl a i -> in_cluster cl b i -> a = b) by (intros; eapply Hd; eauto).
    clear Hd. induction cl as [|c cl IH]; [reflexivity|]. simpl.
    destruct (memb i c && memb j c) eqn:E; simpl.
    - assert (Hno : sumL (fun c => if memb i c && memb j c then M i j else 0%num) cl = 0%num).
      { apply sumL_zero. intros c' Hc'. destruct (memb i c' && memb j c') eqn:E'; [|reflexivity].
        exfalso. apply andb_true_iff in E, E'. rewrite !memb_In in E, E'.
        destruct (In_nth_error _ _ Hc') as [a Ha].
        assert (0 = S a); [|lia]. apply Hd'; [apply in_cluster_0; tauto|].
        apply in_cluster_S. exists c'. tauto. }
      rewrite Hno. ring.
    - rewrite IH; [ring|]. intros a b Ha Hb. assert (S a = S b) by (apply Hd'; assumption). lia. }
  rewrite (sumL_ext _ (fun i => sumL (fun c => sumL (fun j => if memb i c && memb j c then M i j else 0%num)
            (concat cl)) cl)).
  2:{ intros i _. rewrite sumL_swap. apply sumL_ext. intros j _. apply H. }
  rewrite sumL_swap. apply sumL_ext. intros c Hc. unfold block.
  assert (Hf : Permutation (filter (fun x => memb x c) (concat cl)) c).
  { apply NoDup_perm_set; [now apply filter_NoDup| |].
    - apply NoDup_concat_iff in Hnd. destruct Hnd as [Hf _]. rewrite Forall_forall in Hf. auto.
    - intros x. rewrite filter_In, memb_In, in_concat. split; [tauto|].
      intros Hx. split; [exists c; auto|exact Hx]. }
  rewrite <- (sumL_perm (fun i => sumL (fun j => M i j) c) _ _ Hf), sumL_filter.
  apply sumL_ext. intros i _. destruct (memb i c); simpl.
  - rewrite <- (sumL_perm (fun j => M i j) _ _ Hf), sumL_filter. reflexivity.
  - apply sumL_zero. reflexivity.
Qed.

Lemma stability_spec M p : valid p -> compute_stability M p = stability M p.
Proof.
  intros Hv. rewrite stability_eq, <- pairs_blocks by now apply valid_NoDup_concat.
  unfold stability, sumN. rewrite (sumL_perm _ _ _ (valid_perm p Hv)).
  apply sumL_ext. intros i _. rewrite (sumL_perm _ _ _ (valid_perm p Hv)). reflexivity.
Qed.

(** ** C07 *)
Lemma gain_defined M p k ci cf :
  valid p -> in_cluster (cluster_list p) ci k -> cf < length (cluster_list p) -> cf <> ci ->
  exists r_out r_in p', delta_moveout M p k ci = Some r_out /\ delta_moveto M p k cf = Some r_in /\
    move_node p k cf = Done p' /\ (r_out + r_in)%num = (stability M p' - stability M p)%num.
Proof.
  intros Hv Hk Hcf Hne. assert (Hci : dget (n2c p) k = Some ci) by now apply Hv.
  assert (Hn : k < num_nodes p) by (eapply valid_dget_node; eauto).
  destruct (moveout_some M p k ci Hv Hci) as [ro Hro].
  destruct (moveto_some M p k ci cf Hv Hci Hne Hcf) as [ri Hri].
  destruct (move_node_valid p k cf Hv Hn Hcf) as (p' & Hm & Hv').
  exists ro, ri, p'. repeat (split; [assumption|]).
  rewrite <- (stability_spec M p'), <- (stability_spec M p) by assumption.
  rewrite (delta_exact M p k ci cf ro ri p' Hv Hci Hne Hro Hri Hm). ring.
Qed.

(** ** C08 *)
Lemma move_phase_stability setord M neighs orders thr nmax p :
  is_iteration_order setord -> valid p -> neighs_in_range (num_nodes p) neighs ->
  (forall k, order_in_range (num_nodes p) (orders k)) ->
  exists p' d n', louvain_move_nodes setord M neighs orders thr nmax p = MDone p' d n' /\
    valid p' /\ num_nodes p' = num_nodes p /\ no_empty (cluster_list p') /\ (0 <= d)%num /\
    d = (stability M p' - stability M p)%num.
Proof.
  intros Hso Hv Hr Ho.
  destruct (move_phase_spec setord M neighs orders thr nmax p Hso Hv Hr Ho)
    as (p' & d & n' & H1 & H2 & H3 & H4 & H5 & H6 & _).
  exists p', d, n'. repeat (split; [assumption|]).
  rewrite <- !stability_spec, H6 by assumption. ring.
Qed.

(** ** C09 *)
Lemma in_cluster_expand_together cl mcl x y :
  (exists j, in_cluster (expand cl mcl) j x /\ in_cluster (expand cl mcl) j y) <->
  exists a b, In x (nth a cl []) /\ In y (nth b cl []) /\
    exists j, in_cluster mcl j a /\ in_cluster mcl j b.
Proof.
  split.
  - intros (j & Hx & Hy). apply expand_in_cluster in Hx, Hy.
    destruct Hx as (a & Ha & Hx). destruct Hy as (b & Hb & Hy). exists a, b. eauto 6.
  - intros (a & b & Hx & Hy & j & Ha & Hb). exists j. rewrite !expand_in_cluster. split; eauto.
Qed.
Lemma In_nth_in_cluster (cl : list (list nat)) a x : In x (nth a cl []) <-> in_cluster cl a x.
Proof.
  rewrite in_cluster_nth. split; [|tauto]. intros H. split; [|exact H].
  destruct (lt_dec a (length cl)); [assumption|]. rewrite nth_overflow in H by lia. destruct H.
Qed.

Lemma aggregate_stands_for M p mq q :
  valid p -> valid mq -> num_nodes mq = length (cluster_list p) -> valid q -> stands_for p mq q ->
  stability (aggregate M p) mq = stability M q.
Proof.
  intros Hv Hvm Hlen Hvq [Hn Hst].
  rewrite <- stability_spec, aggregate_stability by exact Hvm.
  set (e := expand (cluster_list p) (cluster_list mq)).
  assert (He : partitions (num_nodes p) e).
  { apply expand_partitions; [apply Hv|]. rewrite <- Hlen. apply Hvm. }
  assert (Hve : valid (mkPart (num_nodes p) e (build_dict e))).
  { split; [exact He|]. apply build_dict_matches. apply He. }
  transitivity (compute_stability M (mkPart (num_nodes p) e (build_dict e)));
    [now rewrite stability_eq|].
  rewrite stability_spec by exact Hve. unfold stability. simpl. rewrite Hn.
  apply sumN_ext. intros i _. apply sumN_ext. intros j _.
  replace (sameb q i j) with (sameb (mkPart (num_nodes p) e (build_dict e)) i j); [reflexivity|].
  apply eq_iff_eq_true. rewrite !sameb_together, Hst. unfold together at 1. simpl.
  unfold e. rewrite in_cluster_expand_together. split.
  - intros (a & b & Ha & Hb & Hj). exists a, b. rewrite <- !In_nth_in_cluster. auto.
  - intros (a & b & Ha & Hb & Hj). exists a, b. rewrite !In_nth_in_cluster. auto.
Qed.

Lemma updated_stands_for p mp :
  valid p -> no_empty (cluster_list p) -> valid mp -> no_empty (cluster_list mp) ->
  num_nodes mp = length (cluster_list p) -> 0 < num_nodes p ->
  exists p', updated_partition p mp = Some p' /\ valid p' /\ no_empty (cluster_list p') /\
    stands_for p mp p'.
Proof.
  intros Hv Hne Hvm Hnem Hlen Hpos.
  destruct (updated_partition_spec p mp Hv Hne Hvm Hnem Hlen Hpos) as (q & Hq & Hvq & Hneq & Hn & Hss).
  exists q. split; [exact Hq|]. split; [exact Hvq|]. split; [exact Hneq|]. split; [exact Hn|].
  intros x y. unfold together at 1.
  transitivity (exists j, in_cluster (expand (cluster_list p) (cluster_list mp)) j x /\
                          in_cluster (expand (cluster_list p) (cluster_list mp)) j y).
  - split; intros (j & H1 & H2); exists j.
    + now rewrite <- !(same_sets_in_cluster _ _ _ _ Hss).
    + now rewrite !(same_sets_in_cluster _ _ _ _ Hss).
  - rewrite in_cluster_expand_together. unfold together.
    split; intros (a & b & Ha & Hb & Hj); exists a, b.
    + rewrite <- !In_nth_in_cluster. auto.
    + rewrite !In_nth_in_cluster. auto.
Qed.

(** ** C10 *)
Lemma find_louvain_default setord orders T S thr nmeta nsub n :
  is_iteration_order setord -> shuffles orders -> 0 < n -> S_is_zero n S = false ->
  has_out_flow n T ->
  exists p' n', find_louvain setord orders T S thr nmeta nsub (part_default n) = LDone p' n' /\
     valid p' /\ no_empty (cluster_list p') /\ num_nodes p' = n /\
     (stability S (part_default n) <= stability S p')%num.
Proof.
  intros Hso Hsh Hn Hz [HT1 HT2].
  destruct (find_louvain_spec setord orders T S thr nmeta nsub n Hso Hsh Hn Hz)
    as [(p' & n' & H1 & H2 & H3 & H4 & H5 & _)|(p' & _ & H2 & H3 & H4 & _ & H6)].
  - exists p', n'. repeat (split; [assumption|]).
    rewrite <- !stability_spec; [exact H5|exact H2|apply default_valid].
  - rewrite (rows_nonzero_agg n T p') in H6 by assumption. discriminate.
Qed.

Lemma S_is_zero_spec n S : S_is_zero n S = true <->
  forall i j, i < n -> j < n -> (qabs (S i j) < qf 1 1000000 / qn (n * n))%num.
Proof.
  unfold S_is_zero. rewrite forallb_forall. split.
  - intros H i j Hi Hj. apply seq_In_iff in Hi, Hj. specialize (H i Hi). rewrite forallb_forall in H.
    specialize (H j Hj). destruct (qltb_spec (qabs (S i j)) (qf 1 1000000 / qn (n * n))%num); [assumption|discriminate].
  - intros H i Hi. apply forallb_forall. intros j Hj. apply seq_In_iff in Hi, Hj.
    destruct (qltb_spec (qabs (S i j)) (qf 1 1000000 / qn (n * n))%num) as [|Hno]; [reflexivity|].
    destruct Hno. now apply H.
Qed.

(** S declared zero: one cluster is returned, and every partition, hence also the one
    returned, has a stability below 1e-6 in absolute value *)
Lemma full_partition_clusters n : 0 < n -> cluster_list (full_partition n) = [seq 0 n].
Proof. intros H. destruct n as [|n]; [lia|]. reflexivity. Qed.
Lemma full_partition_valid n : 0 < n -> valid (full_partition n).
Proof. intros H. apply of_list_valid, partitions_perm. simpl. rewrite app_nil_r. apply Permutation_refl. Qed.

Lemma find_louvain_zero setord orders T S thr nmeta nsub p :
  0 < num_nodes p -> S_is_zero (num_nodes p) S = true ->
  find_louvain setord orders T S thr nmeta nsub p = LDone (full_partition (num_nodes p)) 0.
Proof.
  intros Hn Hz. unfold find_louvain. destruct (Nat.eqb_spec (num_nodes p) 0); [lia|]. now rewrite Hz.
Qed.

Lemma qabs_bounds x e : (qabs x < e)%num -> (- e < x /\ x < e)%num.
Proof. unfold qabs. destruct (qltb_spec x 0%num) as [H|H]; intros; split; revert H H0; qlra. Qed.

Lemma sumN_upper n f c : (forall i, i < n -> (f i <= c)%num) -> (sumN n f <= qn n * c)%num.
Proof.
  intros H. rewrite <- (seq_length n 0) at 2. rewrite <- sumL_const. apply sumL_le.
  intros a Ha. apply H, seq_In_iff, Ha.
Qed.
Lemma sumN_lower n f c : (forall i, i < n -> (c <= f i)%num) -> (qn n * c <= sumN n f)%num.
Proof.
  intros H. rewrite <- (seq_length n 0) at 1. rewrite <- sumL_const. apply sumL_le.
  intros a Ha. apply H, seq_In_iff, Ha.
Qed.
Lemma zero_stability_bound n S p : 0 < n -> num_nodes p = n -> S_is_zero n S = true ->
  (- qf 1 1000000 <= stability S p /\ stability S p <= qf 1 1000000)%num.
Proof.
  intros Hn Hp Hz. rewrite S_is_zero_spec in Hz. unfold stability. rewrite Hp.
  assert (Hq : (0 < qn (n * n))%num).
  { rewrite <- qn_0. apply qn_lt. nia. }
  set (e := (qf 1 1000000 / qn (n * n))%num) in *.
  assert (He : (qn n * (qn n * e))%num = qf 1 1000000).
  { unfold e. rewrite qn_mult. assert (qn n <> 0%num).
    { apply qneq_pos. rewrite <- qn_0. now apply qn_lt. } field. assumption. }
  assert (He0 : (0 <= e)%num).
  { apply qdiv_nonneg; [|exact Hq]. qcompute. }
  split.
  - rewrite <- He. replace (- (qn n * (qn n * e)))%num with (qn n * (qn n * (- e)))%num by ring.
    apply sumN_lower. intros i Hi. apply sumN_lower. intros j Hj.
    destruct (sameb p i j); [|revert He0; generalize e; qlra].
    apply Qclt_le_weak. apply (qabs_bounds (S i j) e (Hz i j Hi Hj)).
  - rewrite <- He. apply sumN_upper. intros i Hi. apply sumN_upper. intros j Hj.
    destruct (sameb p i j); [|exact He0].
    apply Qclt_le_weak. apply (qabs_bounds (S i j) e (Hz i j Hi Hj)).
Qed.

(** ** C11, what survives: the result of a restart is a valid partition *)
Lemma updated_partition_valid p mp :
  valid p -> no_empty (cluster_list p) -> valid mp ->
  length (cluster_list p) <= num_nodes mp -> 0 < num_nodes p ->
  exists p', updated_partition p mp = Some p' /\ valid p' /\ no_empty (cluster_list p') /\
    num_nodes p' = num_nodes p.
Proof.
  intros Hv Hne Hvm Hlen Hpos. unfold updated_partition.
  pose proof (remove_empty_valid mp Hvm) as Hvm'.
  assert (Ecl : cluster_list (remove_empty_clusters p) = cluster_list p)
    by (simpl; apply filter_nonempty_id; exact Hne).
  rewrite Ecl.
  destruct (upd_dict_spec (remove_empty_clusters mp) (cluster_list p) 0 []) as (d & Hf & Hnd & Hd).
  - intros i Hi. apply valid_node_dget; [exact Hvm'|]. simpl. lia.
  - apply Hv.
  - constructor.
  - cbv zeta. change (num_nodes (remove_empty_clusters p)) with (num_nodes p).
    match goal with |- exists p', match ?X with _ => _ end = _ /\ _ =>
      replace X with (Some d) by (symmetry; exact Hf) end.
    assert (Hcov : dict_covers (num_nodes p) d).
    { split; [exact Hnd|]. intros x. rewrite dget_some_key. destruct Hv as [[_ [_ Hc]] _].
      rewrite Hc. split.
      - intros [i Hi]. destruct (valid_node_dget (remove_empty_clusters mp) i Hvm') as [c Hc'].
        { simpl. apply in_cluster_lt in Hi. lia. }
        exists c. apply Hd. left. exists i. auto.
      - intros [c Hc']. apply Hd in Hc'. destruct Hc' as [[i [Hi _]]|[_ He]]; [eauto|discriminate]. }
    unfold part_of_dict. destruct (dict_max d) as [m|] eqn:Em.
    2:{ destruct d; [|discriminate]. destruct Hcov as [_ Hc]. destruct (proj1 (Hc 0) Hpos). }
    eexists. split; [reflexivity|].
    split; [apply remove_empty_valid_gen, lists_of_dict_partitions;
            [exact Hcov|intros kv; now apply dict_max_ge]|].
    split; [apply remove_empty_no_empty|reflexivity].
Qed.

Lemma valid_length_le p : valid p -> no_empty (cluster_list p) -> length (cluster_list p) <= num_nodes p.
Proof.
  intros Hv Hne. rewrite <- (seq_length (num_nodes p) 0), <- (Permutation_length (valid_perm p Hv)).
  clear Hv. induction Hne as [|c cl Hc _ IH]; simpl; [lia|]. rewrite app_length.
  destruct c; [contradiction|]. simpl. lia.
Qed.

Lemma find_louvain_restart_valid setord orders T S thr nmeta nsub p :
  is_iteration_order setord -> shuffles orders -> valid p -> no_empty (cluster_list p) ->
  0 < num_nodes p -> has_out_flow (num_nodes p) T ->
  exists p' n', find_louvain setord orders T S thr nmeta nsub p = LDone p' n' /\
     valid p' /\ no_empty (cluster_list p') /\ num_nodes p' = num_nodes p.
Proof.
  intros Hso Hsh Hv Hne Hn [HT1 HT2]. unfold find_louvain.
  destruct (Nat.eqb_spec (num_nodes p) 0); [lia|].
  destruct (S_is_zero (num_nodes p) S).
  { eexists _, _. split; [reflexivity|]. split; [now apply full_partition_valid|].
    split; [apply remove_empty_no_empty|reflexivity]. }
  assert (Hgen : forall fuel q delta stop nm mT mS mp, valid q -> no_empty (cluster_list q) ->
    num_nodes q = num_nodes p -> valid mp -> length (cluster_list q) <= num_nodes mp ->
    nmeta + 1 < fuel + nm -> nm <= nmeta + 1 ->
    exists p' n', meta_loop fuel setord orders T S thr nmeta nsub q mT mS mp delta nm stop = LDone p' n' /\
      valid p' /\ no_empty (cluster_list p') /\ num_nodes p' = num_nodes p).
  { induction fuel as [|fuel IH]; intros q delta stop nm mT mS mp Hq Hneq Hnq Hmp Hlen Hf Hnm; [lia|].
    cbn [meta_loop]. destruct (negb (qleb delta thr || stop || (nmeta <? nm))) eqn:E.
    2:{ exists q, nm. auto. }
    apply negb_true_iff in E. apply orb_false_iff in E. destruct E as [_ E3]. apply Nat.ltb_ge in E3.
    destruct (move_phase_spec setord mS (neighs_of (num_nodes mp) mT)
              (fun q => orders (Datatypes.S nm) q (num_nodes mp)) thr nsub mp)
      as (mp' & d & n' & Hmv & Hvm & Hnm' & Hnem & _).
    - exact Hso.
    - exact Hmp.
    - apply neighs_of_range.
    - intros k. now apply shuffles_in_range.
    - rewrite Hmv.
      destruct (updated_partition_valid q mp' Hq Hneq Hvm) as (p1 & Hu & Hv1 & Hne1 & Hn1); [lia|lia|].
      rewrite Hu.
      destruct (all_singletons p1 || (nmeta <? Datatypes.S nm) || qleb d thr).
      + destruct fuel as [|fuel']; [lia|]. simpl. rewrite orb_true_r. simpl.
        exists p1, (Datatypes.S nm). split; [reflexivity|]. split; [exact Hv1|]. split; [exact Hne1|congruence].
      + cbv zeta. rewrite (rows_nonzero_agg (num_nodes p) T p1) by (try assumption; congruence).
        apply IH; try assumption; try lia; try congruence.
        * apply default_valid.
        * simpl. lia. }
  apply Hgen; try assumption; try reflexivity; try lia.
  - apply of_list_valid, Hv.
  - simpl. now apply valid_length_le.
Qed.

(** ** C12 *)
Lemma sweeps_cap setord M neighs orders thr nmax : forall fuel p dl dt nl,
  nmax <= fuel + nl ->
  match sweeps fuel setord M neighs orders thr nmax p dl dt nl with
  | MDone _ _ n' => n' <= Nat.max nl nmax
  | MRaised => True
  | MFuel => False
  end.
Proof.
  induction fuel as [|fuel IH]; intros p dl dt nl Hf; simpl.
  - destruct (Nat.ltb_spec nl nmax); [lia|]. rewrite andb_false_r. lia.
  - destruct (qltb thr dl && (nl <? nmax)) eqn:E; [|lia].
    apply andb_true_iff in E. destruct E as [_ E]. apply Nat.ltb_lt in E.
    destruct (sweep setord M neighs (orders nl) p) as [[p1 d]|]; [|exact I].
    specialize (IH p1 d (dt + d)%num (S nl)).
    destruct (sweeps fuel setord M neighs orders thr nmax p1 d (dt + d)%num (S nl)); [|exact I|];
      [|apply IH; lia]. assert (n_loop <= Nat.max (S nl) nmax) by (apply IH; lia). lia.
Qed.
Lemma move_phase_cap setord M neighs orders thr nmax p :
  match louvain_move_nodes setord M neighs orders thr nmax p with
  | MDone _ _ n' => n' - 1 <= nmax - 1
  | MRaised => True
  | MFuel => False
  end.
Proof.
  unfold louvain_move_nodes. pose proof (sweeps_cap setord M neighs orders thr nmax nmax p 1%num 0%num 1) as H.
  destruct (sweeps nmax setord M neighs orders thr nmax p 1%num 0%num 1); [|exact I|apply H; lia].
  assert (n_loop <= Nat.max 1 nmax) by (apply H; lia). lia.
Qed.
Lemma meta_loop_cap setord orders T S thr nmeta nsub : forall fuel q mT mS mp delta nm stop,
  nmeta + 1 < fuel + nm -> nm <= nmeta + 1 ->
  match meta_loop fuel setord orders T S thr nmeta nsub q mT mS mp delta nm stop with
  | LDone _ n' => n' <= nmeta + 1
  | LRaised _ => True
  | LFuel => False
  end.
Proof.
  induction fuel as [|fuel IH]; intros q mT mS mp delta nm stop Hf Hnm; [lia|].
  cbn [meta_loop]. destruct (negb (qleb delta thr || stop || (nmeta <? nm))) eqn:E; [|exact Hnm].
  apply negb_true_iff in E. apply orb_false_iff in E. destruct E as [_ E3]. apply Nat.ltb_ge in E3.
  assert (Hm := sweeps_cap setord mS (neighs_of (num_nodes mp) mT)
     (fun k => orders (Datatypes.S nm) k (num_nodes mp)) thr nsub nsub mp 1%num 0%num 1).
  unfold louvain_move_nodes.
  destruct (sweeps nsub setord mS (neighs_of (num_nodes mp) mT)
     (fun k => orders (Datatypes.S nm) k (num_nodes mp)) thr nsub mp 1%num 0%num 1) as [mp' d n'| |];
    [|exact I|apply Hm; lia].
  destruct (updated_partition q mp') as [p1|]; [|exact I].
  destruct (all_singletons p1 || (nmeta <? Datatypes.S nm) || qleb d thr).
  - apply IH; lia.
  - cbv zeta. destruct (rows_nonzero (length (cluster_list p1)) (aggregate T p1)); [|exact I].
    apply IH; lia.
Qed.
Lemma find_louvain_cap setord orders T S thr nmeta nsub p :
  match find_louvain setord orders T S thr nmeta nsub p with
  | LDone _ n' => n' <= nmeta + 1
  | LRaised _ => True
  | LFuel => False
  end.
Proof.
  unfold find_louvain. destruct (Nat.eqb (num_nodes p) 0); [exact I|].
  destruct (S_is_zero (num_nodes p) S); [lia|]. apply meta_loop_cap; lia.
Qed.

(** ** C13 *)
Lemma bi_autocov_block M ps pt s t :
  bi_autocov M ps pt s t = block M (nth s (cluster_list ps) []) (nth t (cluster_list pt) []).
Proof.
  unfold bi_autocov, get_num_clusters.
  destruct (Nat.ltb_spec s (length (cluster_list ps))) as [Hs|Hs].
  2:{ rewrite nth_overflow by exact Hs. reflexivity. }
  destruct (Nat.ltb_spec t (length (cluster_list pt))) as [Ht|Ht].
  2:{ rewrite (nth_overflow (cluster_list pt)) by exact Ht. now rewrite block_nil_r. }
  destruct (nth s (cluster_list ps) []) eqn:E1; [reflexivity|].
  destruct (nth t (cluster_list pt) []) eqn:E2; simpl; [|reflexivity].
  symmetry. apply (block_nil_r M (n :: l)).
Qed.
Lemma bi_autocov_total M ps pt :
  valid ps -> valid pt -> 
  sumN (length (cluster_list ps)) (fun s => sumN (length (cluster_list pt)) (fun t => bi_autocov M ps pt s t))
  = sumN (num_nodes ps) (fun i => sumN (num_nodes pt) (fun j => M i j)).
Proof.
  intros Hs Ht.
  transitivity (block M (concat (cluster_list ps)) (concat (cluster_list pt))).
  - rewrite block_concat. unfold sumN. rewrite (sumL_nth (cluster_list ps) _ []).
    apply sumL_ext. intros s _. rewrite (sumL_nth (cluster_list pt) _ []). apply sumL_ext.
    intros t _. apply bi_autocov_block.
  - apply block_perm; now apply valid_perm.
Qed.
Lemma stability_trace M p :
  compute_stability M p = sumN (length (cluster_list p)) (fun s => bi_autocov M p p s s).
Proof.
  rewrite stability_eq. unfold sumN. rewrite (sumL_nth (cluster_list p) _ []). apply sumL_ext.
  intros s _. symmetry. apply bi_autocov_block.
Qed.
Lemma stability_order M p q : Permutation (cluster_list p) (cluster_list q) ->
  compute_stability M p = compute_stability M q.
Proof. intros H. rewrite !stability_eq. now apply sumL_perm. Qed.

(** ** C14 *)
Lemma madd_eq R a b v s t :
  madd R a b v s t = (R s t + (if Nat.eqb s a && Nat.eqb t b then v else 0))%num.
Proof. unfold madd. destruct (Nat.eqb s a && Nat.eqb t b); [reflexivity|ring]. Qed.
Lemma fold_madd_col (g : nat -> num) c : forall l R s t, NoDup l ->
  fold_left (fun R a => madd R a c (g a)) l R s t
  = (R s t + (if Nat.eqb t c then if memb s l then g s else 0 else 0))%num.
Proof.
  induction l as [|a l IH]; intros R s t Hnd; cbn [fold_left memb existsb].
  - simpl. destruct (Nat.eqb t c); ring.
  - inversion Hnd; subst. rewrite IH by assumption. unfold madd. cbn [memb existsb].
    fold (memb s l). destruct (Nat.eqb_spec s a) as [->|Hne]; destruct (Nat.eqb_spec t c); simpl; try ring.
    destruct (memb_spec a l); [contradiction|]. ring.
Qed.
Lemma fold_madd_row (g : nat -> num) c : forall l R s t, NoDup l ->
  fold_left (fun R a => madd R c a (g a)) l R s t
  = (R s t + (if Nat.eqb s c then if memb t l then g t else 0 else 0))%num.
Proof.
  induction l as [|a l IH]; intros R s t Hnd; cbn [fold_left].
  - simpl. destruct (Nat.eqb s c); ring.
  - inversion Hnd; subst. rewrite IH by assumption. unfold madd. cbn [memb existsb].
    fold (memb t l). destruct (Nat.eqb_spec t a) as [->|Hne]; destruct (Nat.eqb_spec s c); simpl; try ring.
    destruct (memb_spec a l); [contradiction|]. ring.
Qed.
Lemma memb_seq s n : memb s (seq 0 n) = (s <? n).
Proof. apply eq_iff_eq_true. rewrite memb_In, seq_In_iff, Nat.ltb_lt. reflexivity. Qed.

(** [c'] is [c] without [k] if [o], then with [k] added if [i] *)
Lemma moved_cluster p k c_f p' s c_i :
  valid p -> dget (n2c p) k = Some c_i -> move_node p k c_f = Done p' ->
  forall f : nat -> num,
  sumL f (nth s (cluster_list p') []) =
  (sumL f (nth s (cluster_list p) []) - (if Nat.eqb s c_i then f k else 0)
     + (if Nat.eqb s c_f then f k else 0))%num.
Proof.
  intros Hv Hci Hm f. unfold move_node in Hm. rewrite Hci in Hm.
  destruct (Nat.eqb_spec c_i c_f) as [<-|Hne].
  { injection Hm as <-. destruct (Nat.eqb s c_i); ring. }
  assert (Hin : in_cluster (cluster_list p) c_i k) by now apply Hv.
  destruct (nth_error (cluster_list p) c_i) as [si|] eqn:Esi; [|discriminate].
  destruct (memb_spec k si) as [Hki|]; [|discriminate].
  rewrite nth_error_upd_neq in Hm by auto.
  destruct (nth_error (cluster_list p) c_f) as [sf|] eqn:Esf; [|discriminate].
  injection Hm as <-. simpl.
  assert (Lci : c_i < length (cluster_list p)) by (apply nth_error_Some; congruence).
  assert (Lcf : c_f < length (cluster_list p)) by (apply nth_error_Some; congruence).
  assert (Hkf : ~ In k sf).
  { intros H. apply Hne. apply (proj1 Hv) with (x := k); [exact Hin|exists sf; auto]. }
  assert (Hnd : NoDup si).
  { rewrite <- (nth_error_nth _ _ [] Esi). now apply valid_NoDup_nth. }
  rewrite !nth_upd, upd_length. apply Nat.ltb_lt in Lci, Lcf. rewrite Lci, Lcf, !andb_true_r.
  rewrite (Nat.eqb_sym c_f s), (Nat.eqb_sym c_i s).
  destruct (Nat.eqb_spec s c_f) as [->|Hsf].
  - destruct (Nat.eqb_spec c_f c_i) as [?|_]; [congruence|].
    rewrite (nth_error_nth _ _ [] Esf). unfold set_add. destruct (memb_spec k sf); [contradiction|].
    simpl. ring.
  - destruct (Nat.eqb_spec s c_i) as [->|Hsi]; [|ring].
    rewrite (nth_error_nth _ _ [] Esi), (sumL_rem f k si Hnd Hki). ring.
Qed.

Lemma moved_bi M ps pt k cis cit cfs cft ps' pt' s t :
  valid ps -> valid pt -> dget (n2c ps) k = Some cis -> dget (n2c pt) k = Some cit ->
  move_node ps k cfs = Done ps' -> move_node pt k cft = Done pt' ->
  bi_autocov M ps' pt' s t =
  (let cs := nth s (cluster_list ps) [] in let ct := nth t (cluster_list pt) [] in
   let ds := ((if Nat.eqb s cfs then 1 else 0) - (if Nat.eqb s cis then 1 else 0)) in
   let dt := ((if Nat.eqb t cft then 1 else 0) - (if Nat.eqb t cit then 1 else 0)) in
   bi_autocov M ps pt s t + dt * col_sum M cs k + ds * row_sum M k ct + ds * dt * M k k)%num.
Proof.
  intros Hs Ht Hcs Hct Hms Hmt. cbv zeta. rewrite !bi_autocov_block. unfold block, col_sum, row_sum.
  rewrite (moved_cluster ps k cfs ps' s cis Hs Hcs Hms).
  assert (E : forall i, sumL (fun j => M i j) (nth t (cluster_list pt') []) =
     (sumL (fun j => M i j) (nth t (cluster_list pt) []) +
      ((if Nat.eqb t cft then 1 else 0) - (if Nat.eqb t cit then 1 else 0)) * M i k)%num).
  { intros i. rewrite (moved_cluster pt k cft pt' t cit Ht Hct Hmt (fun j => M i j)).
    destruct (Nat.eqb t cft), (Nat.eqb t cit); ring. }
  rewrite (sumL_ext _ _ _ (fun i _ => E i)), sumL_add, sumL_scal_l, !E.
  destruct (Nat.eqb s cfs), (Nat.eqb s cis); ring.
Qed.

Lemma new_R_exact M ps pt k cis cit cfs cft ps' pt' Rout s t :
  valid ps -> valid pt -> in_cluster (cluster_list ps) cis k -> in_cluster (cluster_list pt) cit k ->
  move_node ps k cfs = Done ps' -> move_node pt k cft = Done pt' ->
  new_R_moveout M ps pt k cis cit (bi_autocov M ps pt) = Some Rout ->
  s < length (cluster_list ps) -> t < length (cluster_list pt) ->
  new_R_moveto M ps pt k cis cit cfs cft Rout s t = bi_autocov M ps' pt' s t.
Proof.
  intros Hs Ht Hcs Hct Hms Hmt Hout Ls Lt.
  rewrite (moved_bi M ps pt k cis cit cfs cft) by (try assumption; now apply Hs || now apply Ht).
  unfold new_R_moveout in Hout.
  destruct (nth_error (cluster_list ps) cis); [|discriminate].
  destruct (nth_error (cluster_list pt) cit); [|discriminate].
  destruct (memb k l && memb k l0); [|discriminate]. injection Hout as <-.
  unfold new_R_moveto. cbv zeta. rewrite !madd_eq.
  rewrite fold_madd_row, fold_madd_col by apply seq_NoDup. rewrite !madd_eq.
  rewrite fold_madd_row, fold_madd_col by apply seq_NoDup.
  rewrite !memb_seq. unfold get_num_clusters. apply Nat.ltb_lt in Ls, Lt. rewrite Ls, Lt.
  destruct (Nat.eqb s cfs), (Nat.eqb s cis), (Nat.eqb t cft), (Nat.eqb t cit); simpl; ring.
Qed.
Lemma new_R_moveout_defined M ps pt k cis cit R :
  in_cluster (cluster_list ps) cis k -> in_cluster (cluster_list pt) cit k ->
  exists Rout, new_R_moveout M ps pt k cis cit R = Some Rout.
Proof.
  intros [c [Hc Hk]] [d [Hd Hk']]. unfold new_R_moveout. rewrite Hc, Hd.
  destruct (memb_spec k c); [|contradiction]. destruct (memb_spec k d); [|contradiction]. simpl. eauto.
Qed.

(** ** C15 *)
Lemma S_row_sum n p1 T i : row_stochastic n T -> sumN n p1 = 1%num -> i < n ->
  sumN n (fun j => compute_S p1 (vec_mat n p1 T) T i j) = 0%num.
Proof.
  intros HT Hp Hi. unfold compute_S, sumN. rewrite sumL_sub.
  rewrite (sumL_scal_l (p1 i) (T i)), (sumL_scal_l (p1 i) (vec_mat n p1 T)).
  assert (H1 : sumL (T i) (seq 0 n) = 1%num) by now apply HT.
  assert (H2 : sumL (vec_mat n p1 T) (seq 0 n) = 1%num).
  { unfold vec_mat, sumN. rewrite sumL_swap.
    rewrite (sumL_ext _ p1); [exact Hp|]. intros a Ha. rewrite (sumL_scal_l (p1 a) (T a)).
    apply seq_In_iff in Ha. specialize (HT a Ha). unfold sumN in HT. rewrite HT. ring. }
  rewrite H1, H2. ring.
Qed.
Lemma S_col_sum n p1 T j : sumN n p1 = 1%num ->
  sumN n (fun i => compute_S p1 (vec_mat n p1 T) T i j) = 0%num.
Proof.
  intros Hp. unfold compute_S, sumN. rewrite sumL_sub, (sumL_scal_r (vec_mat n p1 T j) p1).
  unfold sumN in Hp. rewrite Hp. unfold vec_mat, sumN. ring.
Qed.
Lemma full_stability_zero n p1 T : row_stochastic n T -> sumN n p1 = 1%num -> 0 < n ->
  compute_stability (compute_S p1 (vec_mat n p1 T) T) (full_partition n) = 0%num.
Proof.
  intros HT Hp Hn. rewrite stability_eq, full_partition_clusters by exact Hn. simpl.
  unfold block. rewrite sumL_zero; [ring|]. intros i Hi. apply seq_In_iff in Hi.
  now apply S_row_sum.
Qed.

(** ** C56 *)
Lemma find_louvain_zero_rows setord orders T S thr nmeta nsub n :
  is_iteration_order setord -> shuffles orders -> 0 < n -> S_is_zero n S = false ->
  exists p', valid p' /\ no_empty (cluster_list p') /\ num_nodes p' = n /\
    (compute_stability S (part_default n) <= compute_stability S p')%num /\
    ((exists n_meta, find_louvain setord orders T S thr nmeta nsub (part_default n) = LDone p' n_meta) \/
     (find_louvain setord orders T S thr nmeta nsub (part_default n) = LRaised p' /\
      exists c, In c (cluster_list p') /\ sumL (fun i => sumN n (T i)) c = 0%num)).
Proof.
  intros Hso Hsh Hn Hz.
  destruct (find_louvain_spec setord orders T S thr nmeta nsub n Hso Hsh Hn Hz)
    as [(p' & n' & H1 & H2 & H3 & H4 & H5 & _)|(p' & H1 & H2 & H3 & H4 & H5 & H6)];
    exists p'; repeat (split; [assumption|]).
  - left. eauto.
  - right. split; [exact H1|]. unfold rows_nonzero in H6.
    destruct (existsb (fun s => qeqb (sumN (length (cluster_list p')) (aggregate T p' s)) 0%num)
                (seq 0 (length (cluster_list p')))) eqn:E.
    + apply existsb_exists in E. destruct E as (s & Hs & E). apply seq_In_iff in Hs.
      destruct (qeqb_spec (sumN (length (cluster_list p')) (aggregate T p' s)) 0%num) as [E'|]; [|discriminate].
      exists (nth s (cluster_list p') []). split; [now apply nth_In|].
      now rewrite <- (aggregate_row_sum n T p' s).
    + exfalso. rewrite <- not_true_iff_false in H6. apply H6. apply forallb_forall. intros s Hs.
      apply negb_true_iff. rewrite <- not_true_iff_false in E |- *. intros E'. apply E.
      apply existsb_exists. eauto.
Qed.
