From Verif Require Import Base PartitionModel PartitionSpec.

(** * Dictionaries *)
Lemma dget_dset d k v k' :
  dget (dset d k v) k' = if Nat.eqb k k' then Some v else dget d k'.
Proof.
  induction d as [|[a b] d IH]; simpl.
  - reflexivity.
  - destruct (Nat.eqb_spec a k) as [->|Hne]; simpl.
    + destruct (Nat.eqb_spec k k'); reflexivity.
    + rewrite IH. destruct (Nat.eqb_spec a k') as [->|]; [|reflexivity].
      destruct (Nat.eqb_spec k k'); [congruence|reflexivity].
Qed.

Lemma dget_fold_set c i d x :
  dget (fold_left (fun d x => dset d x i) c d) x = if memb x c then Some i else dget d x.
Proof.
  revert d. induction c as [|a c IH]; intros d; [reflexivity|].
  cbn [fold_left]. rewrite IH, dget_dset. simpl.
  rewrite (Nat.eqb_sym x a).
  destruct (memb x c) eqn:E; [rewrite orb_true_r; reflexivity|].
  rewrite orb_false_r. reflexivity.
Qed.

Lemma in_cluster_nil i x : ~ in_cluster [] i x.
Proof. intros [c [H _]]. destruct i; discriminate. Qed.
Lemma in_cluster_0 c cl x : in_cluster (c :: cl) 0 x <-> In x c.
Proof.
  split.
  - intros [c' [H Hin]]. simpl in H. congruence.
  - intros H. exists c. auto.
Qed.
Lemma in_cluster_S c cl i x : in_cluster (c :: cl) (S i) x <-> in_cluster cl i x.
Proof. reflexivity. Qed.
Lemma in_cluster_lt cl i x : in_cluster cl i x -> i < length cl.
Proof. intros [c [H _]]. apply nth_error_Some. congruence. Qed.
Lemma in_cluster_nth cl i x : in_cluster cl i x <-> i < length cl /\ In x (nth i cl []).
Proof.
  split.
  - intros [c [H Hin]]. split; [apply nth_error_Some; congruence|].
    rewrite (nth_error_nth _ _ _ H). exact Hin.
  - intros [Hl Hin]. exists (nth i cl []). split; [|exact Hin]. now apply nth_error_nth'.
Qed.
Lemma in_cluster_concat cl x : (exists i, in_cluster cl i x) <-> In x (concat cl).
Proof.
  rewrite in_concat. split.
  - intros [i [c [H Hin]]]. exists c. split; [eapply nth_error_In; eauto|exact Hin].
  - intros [c [Hc Hin]]. destruct (In_nth_error _ _ Hc) as [i Hi]. exists i, c. auto.
Qed.

(** * [partitions] as a permutation of [seq 0 n] *)
Lemma NoDup_app_iff {A} (l1 l2 : list A) :
  NoDup (l1 ++ l2) <-> NoDup l1 /\ NoDup l2 /\ (forall x, In x l1 -> ~ In x l2).
Proof.
  induction l1 as [|a l IH]; simpl.
  - split; [intros H; repeat split; auto; constructor|tauto].
  - rewrite !NoDup_cons_iff, IH, in_app_iff. split.
    + intros [Hn [H1 [H2 H3]]]. repeat split; auto.
      intros x [->|Hx]; [tauto|auto].
    + intros [[Hn H1] [H2 H3]]. repeat split; auto.
      intros [Hi|Hi]; [tauto|]. apply (H3 a); auto.
Qed.

Lemma NoDup_concat_iff cl :
  NoDup (concat cl) <->
  Forall (@NoDup nat) cl /\ (forall i j x, in_cluster cl i x -> in_cluster cl j x -> i = j).
Proof.
  induction cl as [|c cl IH]; simpl.
  - split; [intros _|constructor]. split; [constructor|].
    intros i j x H. destruct (in_cluster_nil _ _ H).
  - rewrite NoDup_app_iff, IH. split.
    + intros [Hc [[Hf Hd] Hx]]. split; [constructor; auto|].
      intros [|i] [|j] x Hi Hj; auto.
      * apply in_cluster_0 in Hi. apply (proj1 (in_cluster_S c cl j x)) in Hj.
        destruct (Hx x Hi). apply in_cluster_concat. eauto.
      * apply in_cluster_0 in Hj. apply (proj1 (in_cluster_S c cl i x)) in Hi.
        destruct (Hx x Hj). apply in_cluster_concat. eauto.
      * f_equal. apply (Hd i j x); assumption.
    + intros [Hf Hd]. apply Forall_cons_iff in Hf. destruct Hf as [Hc Hf].
      split; [exact Hc|]. split; [split; [exact Hf|]|].
      * intros i j x Hi Hj. assert (S i = S j) by (apply (Hd (S i) (S j) x); assumption). lia.
      * intros x Hx Hin. apply in_cluster_concat in Hin. destruct Hin as [i Hi].
        assert (0 = S i); [|lia]. apply (Hd 0 (S i) x); [now apply in_cluster_0|assumption].
Qed.

Lemma partitions_perm n cl : partitions n cl <-> Permutation (concat cl) (seq 0 n).
Proof.
  unfold partitions. split.
  - intros [Hf [Hd Hc]]. apply NoDup_perm_set; [now apply NoDup_concat_iff|apply seq_NoDup|].
    intros x. rewrite <- in_cluster_concat, <- Hc, seq_In_iff. reflexivity.
  - intros HP.
    assert (Hnd : NoDup (concat cl)).
    { eapply Permutation_NoDup; [apply Permutation_sym; exact HP|apply seq_NoDup]. }
    apply NoDup_concat_iff in Hnd. destruct Hnd as [Hf Hd]. repeat split; auto.
    + intros Hx. apply in_cluster_concat.
      eapply Permutation_in; [apply Permutation_sym; exact HP|]. now apply seq_In_iff.
    + intros Hx. apply in_cluster_concat in Hx. apply seq_In_iff.
      eapply Permutation_in; [exact HP|exact Hx].
Qed.

Lemma valid_perm p : valid p -> Permutation (concat (cluster_list p)) (seq 0 (num_nodes p)).
Proof. intros [H _]. now apply partitions_perm. Qed.
Lemma valid_NoDup_concat p : valid p -> NoDup (concat (cluster_list p)).
Proof.
  intros H. eapply Permutation_NoDup; [apply Permutation_sym, (valid_perm p H)|apply seq_NoDup].
Qed.
Lemma valid_NoDup_nth p i : valid p -> NoDup (nth i (cluster_list p) []).
Proof.
  intros [[Hf _] _]. rewrite Forall_forall in Hf.
  destruct (lt_dec i (length (cluster_list p))) as [Hl|Hl].
  - apply Hf. now apply nth_In.
  - rewrite nth_overflow by lia. constructor.
Qed.
Lemma valid_dget_lt p x i : valid p -> dget (n2c p) x = Some i -> i < length (cluster_list p).
Proof. intros [_ Hd] H. apply Hd in H. eapply in_cluster_lt; eauto. Qed.
Lemma valid_node_dget p x : valid p -> x < num_nodes p -> exists i, dget (n2c p) x = Some i.
Proof.
  intros [[_ [_ Hc]] Hd] H. apply Hc in H. destruct H as [i Hi]. exists i. now apply Hd.
Qed.
Lemma valid_dget_node p x i : valid p -> dget (n2c p) x = Some i -> x < num_nodes p.
Proof. intros [[_ [_ Hc]] Hd] H. apply Hc. exists i. now apply Hd. Qed.

(** * [build_dict] *)
Lemma dget_build_dict_from cl : forall i d x j,
  (forall a b x, in_cluster cl a x -> in_cluster cl b x -> a = b) ->
  (dget (build_dict_from i cl d) x = Some j <->
   (exists k, j = i + k /\ in_cluster cl k x) \/
   ((forall k, ~ in_cluster cl k x) /\ dget d x = Some j)).
Proof.
  induction cl as [|c cl IH]; intros i d x j Hdis; simpl.
  - split.
    + intros H. right. split; [intros k; apply in_cluster_nil|exact H].
    + intros [[k [_ Hk]]|[_ H]]; [destruct (in_cluster_nil _ _ Hk)|exact H].
  - assert (Hdis' : forall a b x, in_cluster cl a x -> in_cluster cl b x -> a = b).
    { intros a b y Ha Hb. assert (S a = S b) by (apply (Hdis (S a) (S b) y); assumption). lia. }
    rewrite IH by exact Hdis'. rewrite dget_fold_set. split.
    + intros [[k [Hk Hin]]|[Hno H]].
      * left. exists (S k). split; [lia|exact Hin].
      * destruct (memb_spec x c) as [Hin|Hin].
        -- left. exists 0. split; [injection H; lia|now apply in_cluster_0].
        -- right. split; [|exact H]. intros [|k]; [rewrite in_cluster_0; exact Hin|apply Hno].
    + intros [[k [Hk Hin]]|[Hno H]].
      * destruct k as [|k].
        -- apply in_cluster_0 in Hin. right. split.
           ++ intros k Hk'. assert (0 = S k); [|lia].
              apply (Hdis 0 (S k) x); [now apply in_cluster_0|exact Hk'].
           ++ destruct (memb_spec x c); [f_equal; lia|contradiction].
        -- left. exists k. split; [lia|exact Hin].
      * right. split; [intros k; apply (Hno (S k))|].
        destruct (memb_spec x c) as [Hin|]; [|exact H].
        destruct (Hno 0). now apply in_cluster_0.
Qed.

Lemma build_dict_matches cl :
  (forall a b x, in_cluster cl a x -> in_cluster cl b x -> a = b) ->
  dict_matches cl (build_dict cl).
Proof.
  intros H x i. unfold build_dict. rewrite dget_build_dict_from by exact H. simpl. split.
  - intros [[k [-> Hk]]|[_ Hn]]; [exact Hk|discriminate].
  - intros Hi. left. exists i. auto.
Qed.

(** * removing empty clusters *)
Lemma concat_filter_nonempty {A} (cl : list (list A)) : concat (filter nonempty cl) = concat cl.
Proof. induction cl as [|[|a c] cl IH]; simpl; [reflexivity|exact IH|]. rewrite IH. reflexivity. Qed.

Lemma partitions_remove_empty n cl : partitions n cl -> partitions n (filter nonempty cl).
Proof. rewrite !partitions_perm, concat_filter_nonempty. auto. Qed.

Lemma remove_empty_valid_gen n cl d :
  partitions n cl -> valid (remove_empty_clusters (mkPart n cl d)).
Proof.
  intros H. apply partitions_remove_empty in H. split; [exact H|].
  apply build_dict_matches. apply H.
Qed.
Lemma remove_empty_valid p : valid p -> valid (remove_empty_clusters p).
Proof. destruct p as [n cl d]. intros [H _]. now apply remove_empty_valid_gen. Qed.
Lemma filter_nonempty_no_empty cl : no_empty (filter nonempty cl).
Proof.
  apply Forall_forall. intros c Hc. apply filter_In in Hc. destruct Hc as [_ Hc].
  intros ->. discriminate.
Qed.
Lemma remove_empty_no_empty p : no_empty (cluster_list (remove_empty_clusters p)).
Proof. apply filter_nonempty_no_empty. Qed.

Lemma in_cluster_In cl i x : in_cluster cl i x -> exists c, In c cl /\ In x c.
Proof. intros [c [H Hin]]. exists c. split; [eapply nth_error_In; eauto|exact Hin]. Qed.

Lemma together_iff p x y :
  together p x y <-> exists c, In c (cluster_list p) /\ In x c /\ In y c.
Proof.
  split.
  - intros [i [[c [H Hx]] [c' [H' Hy]]]]. rewrite H in H'. injection H' as <-.
    exists c. split; [eapply nth_error_In; eauto|auto].
  - intros [c [Hc [Hx Hy]]]. destruct (In_nth_error _ _ Hc) as [i Hi].
    exists i. split; exists c; auto.
Qed.
Lemma remove_empty_together p x y :
  together (remove_empty_clusters p) x y <-> together p x y.
Proof.
  rewrite !together_iff. simpl. split.
  - intros [c [Hc H]]. apply filter_In in Hc. exists c. tauto.
  - intros [c [Hc [Hx Hy]]]. exists c. split; [|auto]. apply filter_In.
    split; [exact Hc|]. destruct c; [destruct Hx|reflexivity].
Qed.

(** the clusters that remain, in the same relative order *)
Lemma remove_empty_idem p :
  remove_empty_clusters (remove_empty_clusters p) = remove_empty_clusters p.
Proof.
  unfold remove_empty_clusters. simpl.
  assert (H : filter nonempty (filter nonempty (cluster_list p)) = filter nonempty (cluster_list p)).
  { induction (cluster_list p) as [|c cl IH]; simpl; [reflexivity|].
    destruct (nonempty c) eqn:E; simpl; [rewrite E, IH; reflexivity|exact IH]. }
  rewrite H. reflexivity.
Qed.
Lemma filter_nonempty_id cl : no_empty cl -> filter nonempty cl = cl.
Proof.
  induction 1 as [|c cl Hc _ IH]; simpl; [reflexivity|].
  destruct c; [contradiction|]. simpl. rewrite IH. reflexivity.
Qed.

(** * Constructors *)
Lemma concat_singletons l : concat (map (fun x : nat => [x]) l) = l.
Proof. induction l as [|a l IH]; simpl; [reflexivity|]. rewrite IH. reflexivity. Qed.
Lemma filter_nonempty_singletons l :
  filter nonempty (map (fun x : nat => [x]) l) = map (fun x => [x]) l.
Proof. induction l as [|a l IH]; simpl; [reflexivity|]. rewrite IH. reflexivity. Qed.
Lemma partitions_singletons n : partitions n (map (fun x => [x]) (seq 0 n)).
Proof. apply partitions_perm. rewrite concat_singletons. apply Permutation_refl. Qed.

Lemma default_valid n : valid (part_default n).
Proof. apply remove_empty_valid_gen, partitions_singletons. Qed.
Lemma default_clusters n : cluster_list (part_default n) = map (fun x => [x]) (seq 0 n).
Proof. unfold part_default. simpl. apply filter_nonempty_singletons. Qed.
Lemma of_list_valid n cl : partitions n cl -> valid (part_of_list n cl).
Proof. apply remove_empty_valid_gen. Qed.

Lemma dget_In d k v : NoDup (keys d) -> (dget d k = Some v <-> In (k, v) d).
Proof.
  induction d as [|[a b] d IH]; simpl; intros Hnd.
  - split; [discriminate|intros []].
  - apply NoDup_cons_iff in Hnd. destruct Hnd as [Hn Hnd].
    destruct (Nat.eqb_spec a k) as [->|Hne].
    + split.
      * intros H. left. congruence.
      * intros [H|H]; [congruence|]. destruct Hn. apply (in_map fst) in H. exact H.
    + rewrite IH by exact Hnd. split; [auto|]. intros [H|H]; [congruence|exact H].
Qed.
Lemma dget_key d k v : dget d k = Some v -> In k (keys d).
Proof.
  induction d as [|[a b] d IH]; simpl; [discriminate|].
  destruct (Nat.eqb_spec a k); [auto|]. intros H. right. auto.
Qed.

Lemma set_add_In x y s : In y (set_add x s) <-> y = x \/ In y s.
Proof.
  unfold set_add. destruct (memb_spec x s) as [H|H]; simpl.
  - split; [auto|intros [->|]; auto].
  - split; intros [->|]; auto.
Qed.
Lemma set_add_NoDup x s : NoDup s -> NoDup (set_add x s).
Proof.
  unfold set_add. destruct (memb_spec x s) as [H|H]; [auto|]. constructor; assumption.
Qed.

Lemma nth_upd {A} (l : list A) i j v d :
  nth j (upd l i v) d = if Nat.eqb i j && (i <? length l) then v else nth j l d.
Proof.
  destruct (Nat.eqb_spec i j) as [->|Hne]; simpl.
  - destruct (Nat.ltb_spec j (length l)); [now apply nth_upd_eq|]. now rewrite upd_oob.
  - now apply nth_upd_neq.
Qed.

Section OfDict.
Let step := fun (cl : list (list nat)) (kv : nat * nat) =>
              upd cl (snd kv) (set_add (fst kv) (nth (snd kv) cl [])).
Lemma lists_fold_length d cl : length (fold_left step d cl) = length cl.
Proof.
  revert cl. induction d as [|kv d IH]; intros cl; simpl; [reflexivity|].
  rewrite IH. unfold step. apply upd_length.
Qed.
Lemma lists_fold_In d cl i x :
  (forall kv, In kv d -> snd kv < length cl) ->
  In x (nth i (fold_left step d cl) []) <-> In x (nth i cl []) \/ In (x, i) d.
Proof.
  revert cl. induction d as [|[k v] d IH]; intros cl Hb; simpl.
  - tauto.
  - rewrite IH.
    2:{ intros kv Hkv. unfold step. rewrite upd_length. apply Hb. right. exact Hkv. }
    unfold step. simpl. rewrite nth_upd.
    assert (Hv : v < length cl) by (apply (Hb (k, v)); left; reflexivity).
    apply Nat.ltb_lt in Hv. rewrite Hv, andb_true_r.
    destruct (Nat.eqb_spec v i) as [->|Hne].
    + rewrite set_add_In. split.
      * intros [[->|H]|H]; auto.
      * intros [H|[H|H]]; auto. injection H as -> . auto.
    + split; [intros [H|H]; auto|]. intros [H|[H|H]]; auto. congruence.
Qed.
Lemma lists_fold_NoDup d cl : Forall (@NoDup nat) cl -> Forall (@NoDup nat) (fold_left step d cl).
Proof.
  revert cl. induction d as [|[k v] d IH]; intros cl H; simpl; [exact H|].
  apply IH. rewrite Forall_forall in *. intros c Hc. unfold step in Hc. simpl in Hc.
  destruct (In_nth _ _ [] Hc) as [j [Hj <-]]. rewrite upd_length in Hj. rewrite nth_upd.
  destruct (Nat.eqb v j && (v <? length cl)).
  - apply set_add_NoDup. destruct (lt_dec v (length cl)).
    + apply H. now apply nth_In.
    + rewrite nth_overflow by lia. constructor.
  - apply H. now apply nth_In.
Qed.
End OfDict.

Lemma fold_max_ge (l : dict) kv :
  In kv l -> snd kv <= fold_right (fun kv m => Nat.max (snd kv) m) 0 l.
Proof.
  induction l as [|a l IH]; cbn [fold_right In]; [tauto|].
  intros [->|H]; [lia|]. specialize (IH H). lia.
Qed.
Lemma dict_max_ge d m kv : dict_max d = Some m -> In kv d -> snd kv <= m.
Proof.
  unfold dict_max. destruct d as [|e d]; [discriminate|]. intros H Hin.
  assert (E : m = fold_right (fun kv m => Nat.max (snd kv) m) 0 (e :: d)) by congruence.
  rewrite E. now apply fold_max_ge.
Qed.

Lemma nth_repeat_nil {A} i m : nth i (repeat (@nil A) m) [] = [].
Proof. revert i. induction m as [|m IH]; intros [|i]; simpl; auto. Qed.

Lemma lists_of_dict_spec m d :
  NoDup (keys d) -> (forall kv, In kv d -> snd kv <= m) ->
  forall i x, in_cluster (lists_of_dict m d) i x <-> dget d x = Some i.
Proof.
  intros Hnd Hm i x. unfold lists_of_dict. rewrite in_cluster_nth, lists_fold_length.
  rewrite lists_fold_In.
  2:{ intros kv Hkv. rewrite repeat_length. specialize (Hm kv Hkv). lia. }
  rewrite nth_repeat_nil, repeat_length, dget_In by exact Hnd. simpl. split.
  - intros [_ [[]|H]]. exact H.
  - intros H. split; [|right; exact H]. specialize (Hm _ H). simpl in Hm. lia.
Qed.
Lemma lists_of_dict_NoDup m d : Forall (@NoDup nat) (lists_of_dict m d).
Proof.
  apply lists_fold_NoDup. apply Forall_forall. intros c Hc.
  apply repeat_spec in Hc. subst. constructor.
Qed.

Lemma dget_some_key d x : In x (keys d) <-> exists i, dget d x = Some i.
Proof.
  induction d as [|[a b] d IH]; simpl.
  - split; [intros []|intros [i Hi]; discriminate].
  - destruct (Nat.eqb_spec a x) as [->|Hne].
    + split; [intros _; eauto|auto].
    + rewrite <- IH. split; [intros [H|H]; [contradiction|exact H]|auto].
Qed.

Lemma lists_of_dict_partitions n m d :
  dict_covers n d -> (forall kv, In kv d -> snd kv <= m) ->
  partitions n (lists_of_dict m d).
Proof.
  intros [Hnd Hc] Hm. split; [apply lists_of_dict_NoDup|]. split.
  - intros i j x Hi Hj. apply (lists_of_dict_spec m d Hnd Hm) in Hi, Hj. congruence.
  - intros x. rewrite Hc, dget_some_key. split; intros [i Hi]; exists i;
      apply (lists_of_dict_spec m d Hnd Hm); exact Hi.
Qed.

Lemma of_dict_valid n d p : dict_covers n d -> part_of_dict n d = Some p -> valid p.
Proof.
  unfold part_of_dict. intros Hc. destruct (dict_max d) as [m|] eqn:Em; [|discriminate].
  intros H. injection H as <-. apply remove_empty_valid_gen.
  apply lists_of_dict_partitions; [exact Hc|]. intros kv. now apply dict_max_ge.
Qed.
Lemma of_dict_together n d p x y : dict_covers n d -> part_of_dict n d = Some p ->
  (together p x y <-> exists i, dget d x = Some i /\ dget d y = Some i).
Proof.
  unfold part_of_dict. intros [Hnd Hc]. destruct (dict_max d) as [m|] eqn:Em; [|discriminate].
  intros H. injection H as <-. rewrite remove_empty_together. unfold together. simpl.
  assert (Hm : forall kv, In kv d -> snd kv <= m) by (intros kv; now apply dict_max_ge).
  split; intros [i [H1 H2]]; exists i; rewrite ?(lists_of_dict_spec m d Hnd Hm) in *; auto.
Qed.

(** * Moves *)
Lemma nth_error_nth_In {A} (l : list A) i c : nth_error l i = Some c -> In c l.
Proof. apply nth_error_In. Qed.

Lemma move_node_spec p x c :
  valid p -> x < num_nodes p -> c < length (cluster_list p) ->
  exists p', move_node p x c = Done p' /\
    num_nodes p' = num_nodes p /\
    length (cluster_list p') = length (cluster_list p) /\
    (forall i y, in_cluster (cluster_list p') i y <->
       (y = x /\ i = c) \/ (y <> x /\ in_cluster (cluster_list p) i y)) /\
    (forall y, dget (n2c p') y = if Nat.eqb x y then Some c else dget (n2c p) y) /\
    Forall (@NoDup nat) (cluster_list p').
Proof.
  intros Hv Hx Hc. destruct (valid_node_dget p x Hv Hx) as [ci Hci].
  pose proof (proj2 Hv) as Hd. pose proof (proj1 (Hd x ci) Hci) as [si [Hsi Hin]].
  unfold move_node. rewrite Hci.
  destruct (Nat.eqb_spec ci c) as [->|Hne].
  - exists p. repeat (split; [reflexivity|]). split; [|split].
    + intros i y. destruct (Nat.eq_dec y x) as [->|Hyx].
      * rewrite <- (Hd x i), Hci. split; [intros H; left; split; congruence|].
        intros [[_ ->]|[H _]]; [reflexivity|contradiction].
      * split; [auto|]. intros [[H _]|[_ H]]; [contradiction|exact H].
    + intros y. destruct (Nat.eqb_spec x y) as [<-|]; auto.
    + apply Hv.
  - rewrite Hsi. destruct (memb_spec x si) as [_|Hno]; [|contradiction].
    rewrite nth_error_upd_neq by lia.
    destruct (nth_error (cluster_list p) c) as [sf|] eqn:Hsf.
    2:{ apply nth_error_None in Hsf. lia. }
    eexists. split; [reflexivity|]. simpl. split; [reflexivity|].
    split; [rewrite !upd_length; reflexivity|]. split; [|split].
    + intros i y. rewrite !in_cluster_nth, !upd_length, !nth_upd.
      assert (Hcil : ci < length (cluster_list p)) by (apply nth_error_Some; congruence).
      rewrite upd_length. apply Nat.ltb_lt in Hcil as Hcil'. apply Nat.ltb_lt in Hc as Hc'.
      rewrite Hcil', Hc', !andb_true_r.
      rewrite <- (nth_error_nth _ _ [] Hsi), <- (nth_error_nth _ _ [] Hsf) in *.
      assert (Hux : forall i, i < length (cluster_list p) -> In x (nth i (cluster_list p) []) -> i = ci).
      { intros i0 Hl Hi. assert (Hic : in_cluster (cluster_list p) i0 x) by (apply in_cluster_nth; auto).
        apply Hd in Hic. congruence. }
      destruct (Nat.eqb_spec c i) as [<-|Hci'].
      * rewrite set_add_In. split.
        -- intros [Hl [->|Hy]]; [left; auto|]. right. split; [|auto].
           intros ->. apply Hne. symmetry. now apply Hux.
        -- intros [[-> _]|[_ [_ Hy]]]; auto.
      * destruct (Nat.eqb_spec ci i) as [<-|Hcii].
        -- rewrite rem_In. split; [intros [Hl [Hy Hn]]; right; auto|].
           intros [[_ H]|[Hn [Hl Hy]]]; [congruence|auto].
        -- split.
           ++ intros [Hl Hy]. right. split; [|auto]. intros ->. apply Hcii. symmetry. now apply Hux.
           ++ intros [[_ H]|[_ H]]; [congruence|exact H].
    + intros y. apply dget_dset.
    + destruct Hv as [[Hf _] _]. rewrite Forall_forall in *. intros l Hl.
      destruct (In_nth _ _ [] Hl) as [j [Hj <-]]. rewrite !upd_length in Hj.
      assert (Hcil : ci < length (cluster_list p)) by (apply nth_error_Some; congruence).
      rewrite !nth_upd. rewrite !upd_length.
      destruct (Nat.eqb c j && (c <? length (cluster_list p))).
      * apply set_add_NoDup. apply Hf. eapply nth_error_In; eauto.
      * destruct (Nat.eqb ci j && (ci <? length (cluster_list p))).
        -- apply rem_NoDup. apply Hf. eapply nth_error_In; eauto.
        -- apply Hf. now apply nth_In.
Qed.

Lemma move_node_valid p x c :
  valid p -> x < num_nodes p -> c < length (cluster_list p) ->
  exists p', move_node p x c = Done p' /\ valid p'.
Proof.
  intros Hv Hx Hc. destruct (move_node_spec p x c Hv Hx Hc) as (p' & Hm & Hn & Hl & Hin & Hd & Hnd).
  exists p'. split; [exact Hm|]. destruct Hv as [[Hf [Hdis Hcov]] Hdm].
  split; [split; [exact Hnd|split]|].
  - intros i j y Hi Hj. apply Hin in Hi, Hj.
    destruct Hi as [[-> ->]|[Hy Hi]]; destruct Hj as [[Hj1 Hj2]|[Hy' Hj]]; try congruence.
    eapply Hdis; eauto.
  - intros y. rewrite Hn. split.
    + intros Hy. destruct (Nat.eq_dec y x) as [->|Hne]; [exists c; apply Hin; auto|].
      apply Hcov in Hy. destruct Hy as [i Hi]. exists i. apply Hin. auto.
    + intros [i Hi]. apply Hin in Hi. destruct Hi as [[-> _]|[_ Hi]]; [exact Hx|].
      apply Hcov. eauto.
  - intros y i. rewrite Hd, Hin. destruct (Nat.eqb_spec x y) as [<-|Hne].
    + split; [intros H; left; split; congruence|]. intros [[_ ->]|[H _]]; [reflexivity|contradiction].
    + rewrite (Hdm y i). split; [intros H; right; auto|]. intros [[H _]|[_ H]]; [congruence|exact H].
Qed.

(** whatever the arguments, a call that returns normally keeps validity *)
Lemma move_node_done_valid p x c p' :
  valid p -> move_node p x c = Done p' -> valid p' /\ num_nodes p' = num_nodes p.
Proof.
  intros Hv Hm.
  destruct (dget (n2c p) x) as [ci|] eqn:Hci.
  2:{ unfold move_node in Hm. rewrite Hci in Hm. discriminate. }
  assert (Hx : x < num_nodes p) by (eapply valid_dget_node; eauto).
  destruct (lt_dec c (length (cluster_list p))) as [Hc|Hc].
  - destruct (move_node_spec p x c Hv Hx Hc) as (p1 & Hm1 & Hn1 & _).
    destruct (move_node_valid p x c Hv Hx Hc) as (p2 & Hm2 & Hv2).
    split; congruence.
  - exfalso. unfold move_node in Hm. rewrite Hci in Hm.
    assert (Hcil : ci < length (cluster_list p)) by (eapply valid_dget_lt; eauto).
    destruct (Nat.eqb_spec ci c); [lia|].
    destruct (nth_error (cluster_list p) ci) as [si|]; [|discriminate].
    destruct (memb x si); [|discriminate].
    destruct (nth_error (upd (cluster_list p) ci (rem x si)) c) eqn:E; [|discriminate].
    assert (c < length (upd (cluster_list p) ci (rem x si))) by (apply nth_error_Some; congruence).
    rewrite upd_length in *. lia.
Qed.

Lemma pstep_valid p o p' : valid p -> pstep p o = Some p' -> valid p' /\ num_nodes p' = num_nodes p.
Proof.
  intros Hv. destruct o as [x c|]; simpl.
  - destruct (move_node p x c) eqn:E; [|discriminate]. intros H. injection H as <-.
    eapply move_node_done_valid; eauto.
  - intros H. injection H as <-. split; [now apply remove_empty_valid|reflexivity].
Qed.
Lemma prun_valid os : forall p p', valid p -> prun p os = Some p' ->
  valid p' /\ num_nodes p' = num_nodes p.
Proof.
  induction os as [|o os IH]; intros p p' Hv H; simpl in H.
  - injection H as <-. auto.
  - destruct (pstep p o) as [p1|] eqn:E; [|discriminate].
    destruct (pstep_valid _ _ _ Hv E) as [Hv1 Hn1].
    destruct (IH _ _ Hv1 H) as [Hv2 Hn2]. split; [exact Hv2|congruence].
Qed.

Lemma prun_in_range os : forall p, valid p -> ops_in_range p os -> exists p', prun p os = Some p'.
Proof.
  induction os as [|o os IH]; intros p Hv H; simpl in *; [eauto|].
  destruct H as [Ho Hr]. destruct o as [x c|].
  - destruct Ho as [Hx Hc]. destruct (move_node_valid p x c Hv Hx Hc) as (p1 & Hm & Hv1).
    simpl in *. rewrite Hm in *. now apply IH.
  - simpl in *. apply IH; [now apply remove_empty_valid|exact Hr].
Qed.

Lemma move_together p x c p' :
  valid p -> x < num_nodes p -> move_node p x c = Done p' ->
  forall y z, y <> x -> z <> x -> (together p' y z <-> together p y z).
Proof.
  intros Hv Hx Hm y z Hy Hz.
  destruct (lt_dec c (length (cluster_list p))) as [Hc|Hc].
  - destruct (move_node_spec p x c Hv Hx Hc) as (p1 & Hm1 & Hn & Hl & Hin & _).
    assert (p1 = p') by congruence. subst p1.
    unfold together. split; intros [i [H1 H2]]; exists i.
    + apply Hin in H1, H2. destruct H1 as [[? _]|[_ ?]]; [contradiction|].
      destruct H2 as [[? _]|[_ ?]]; [contradiction|]. auto.
    + split; apply Hin; auto.
  - unfold move_node in Hm. destruct (valid_node_dget p x Hv Hx) as [ci Hci].
    rewrite Hci in Hm. assert (Hcil := valid_dget_lt p x ci Hv Hci).
    destruct (Nat.eqb_spec ci c); [lia|].
    destruct (nth_error (cluster_list p) ci); [|discriminate].
    destruct (memb x l); [|discriminate].
    destruct (nth_error (upd (cluster_list p) ci (rem x l)) c) eqn:E; [|discriminate].
    assert (c < length (upd (cluster_list p) ci (rem x l))) by (apply nth_error_Some; congruence).
    rewrite upd_length in *. lia.
Qed.
Lemma move_lands p x c p' :
  valid p -> move_node p x c = Done p' -> in_cluster (cluster_list p') c x.
Proof.
  intros Hv Hm. destruct (move_node_done_valid _ _ _ _ Hv Hm) as [[_ Hd] _].
  apply Hd. unfold move_node in Hm.
  destruct (dget (n2c p) x) as [ci|] eqn:Hci; [|discriminate].
  destruct (Nat.eqb_spec ci c); [congruence|].
  destruct (nth_error (cluster_list p) ci) as [si|]; [|discriminate].
  destruct (memb x si); [|discriminate].
  destruct (nth_error (upd (cluster_list p) ci (rem x si)) c); [|discriminate].
  injection Hm as <-. simpl. rewrite dget_dset, Nat.eqb_refl. reflexivity.
Qed.

(** * Round trips *)
Lemma dict_matches_functional cl d1 d2 :
  dict_matches cl d1 -> dict_matches cl d2 -> same_dict d1 d2.
Proof.
  intros H1 H2 x. destruct (dget d1 x) as [i|] eqn:E1; destruct (dget d2 x) as [j|] eqn:E2; auto.
  - apply H1, H2 in E1. congruence.
  - apply H1, H2 in E1. congruence.
  - apply H2, H1 in E2. congruence.
Qed.

Lemma same_sets_nth cl1 cl2 :
  length cl1 = length cl2 ->
  (forall i x, i < length cl1 -> (In x (nth i cl1 []) <-> In x (nth i cl2 []))) ->
  same_sets cl1 cl2.
Proof.
  revert cl2. induction cl1 as [|a cl1 IH]; intros [|b cl2] Hl H; try discriminate; [constructor|].
  constructor.
  - intros x. apply (H 0 x). simpl. lia.
  - apply IH; [simpl in Hl; lia|]. intros i x Hi. apply (H (S i) x). simpl. lia.
Qed.

Lemma same_sets_filter cl1 cl2 :
  same_sets cl1 cl2 -> same_sets (filter nonempty cl1) (filter nonempty cl2).
Proof.
  induction 1 as [|a b cl1 cl2 Hab _ IH]; simpl; [constructor|].
  destruct a as [|x a], b as [|y b]; simpl; try exact IH.
  - destruct (proj2 (Hab y)). left. reflexivity.
  - destruct (proj1 (Hab x)). left. reflexivity.
  - constructor; assumption.
Qed.
Lemma same_sets_in_cluster cl1 cl2 i x :
  same_sets cl1 cl2 -> (in_cluster cl1 i x <-> in_cluster cl2 i x).
Proof.
  intros H. revert i. induction H as [|a b cl1 cl2 Hab _ IH]; intros i.
  - split; intros Hc; destruct (in_cluster_nil _ _ Hc).
  - destruct i as [|i]; [rewrite !in_cluster_0; apply Hab|rewrite !in_cluster_S; apply IH].
Qed.
Lemma same_sets_trans a b c : same_sets a b -> same_sets b c -> same_sets a c.
Proof.
  intros H. revert c. induction H as [|x y a b Hxy _ IH]; intros c Hc; inversion Hc; subst; constructor.
  - intros z. rewrite Hxy. auto.
  - apply IH. assumption.
Qed.
Lemma same_sets_refl a : same_sets a a.
Proof. induction a; constructor; [reflexivity|assumption]. Qed.

(** length of the list built from a dict reaches exactly the largest used index *)
Lemma dict_max_In d m : dict_max d = Some m -> exists k, In (k, m) d.
Proof.
  unfold dict_max. destruct d as [|e d]; [discriminate|]. intros H.
  assert (E : m = fold_right (fun kv m => Nat.max (snd kv) m) 0 (e :: d)) by congruence.
  clear H. subst m. revert e. induction d as [|f d IH]; intros [k v].
  - exists k. left. cbn [fold_right snd]. f_equal. lia.
  - destruct (IH f) as [k' Hk'].
    remember (fold_right (fun kv m => Nat.max (snd kv) m) 0 (f :: d)) as M eqn:EM.
    change (fold_right (fun kv m => Nat.max (snd kv) m) 0 ((k, v) :: f :: d))
      with (Nat.max v (fold_right (fun kv m => Nat.max (snd kv) m) 0 (f :: d))).
    rewrite <- EM.
    destruct (Nat.max_spec v M) as [[_ ->]|[_ ->]].
    + exists k'. right. exact Hk'.
    + exists k. left. reflexivity.
Qed.

Lemma same_sets_pad cl1 cl2 :
  (forall i x, in_cluster cl1 i x <-> in_cluster cl2 i x) ->
  same_sets (filter nonempty cl1) (filter nonempty cl2).
Proof.
  revert cl2. induction cl1 as [|a cl1 IH]; intros cl2 H.
  - assert (E : filter nonempty cl2 = []).
    { clear - H. assert (Hc : forall c, In c cl2 -> c = []).
      { intros c Hc. destruct (In_nth_error _ _ Hc) as [i Hi]. destruct c as [|x c]; [reflexivity|].
        assert (Hx : in_cluster [] i x) by (apply H; exists (x :: c); split; [exact Hi|left; reflexivity]).
        destruct (in_cluster_nil _ _ Hx). }
      clear H. induction cl2 as [|c cl2 IH]; [reflexivity|]. simpl.
      rewrite (Hc c) by (left; reflexivity). simpl. apply IH. intros c' Hc'. apply Hc. right. exact Hc'. }
    rewrite E. constructor.
  - destruct cl2 as [|b cl2].
    + assert (E : filter nonempty (a :: cl1) = []).
      { assert (Hc : forall c, In c (a :: cl1) -> c = []).
        { intros c Hc. destruct (In_nth_error _ _ Hc) as [i Hi]. destruct c as [|x c]; [reflexivity|].
          assert (Hx : in_cluster [] i x) by (apply H; exists (x :: c); split; [exact Hi|left; reflexivity]).
          destruct (in_cluster_nil _ _ Hx). }
        clear - Hc. induction (a :: cl1) as [|c l IH]; [reflexivity|]. simpl.
        rewrite (Hc c) by (left; reflexivity). simpl. apply IH. intros c' Hc'. apply Hc. right. exact Hc'. }
      rewrite E. constructor.
    + assert (Hab : forall x, In x a <-> In x b).
      { intros x. rewrite <- (in_cluster_0 a cl1), <- (in_cluster_0 b cl2). apply H. }
      assert (Hr : same_sets (filter nonempty cl1) (filter nonempty cl2)).
      { apply IH. intros i x. exact (H (S i) x). }
      simpl. destruct a as [|x a], b as [|y b]; simpl; try exact Hr.
      * destruct (proj2 (Hab y)). left. reflexivity.
      * destruct (proj1 (Hab x)). left. reflexivity.
      * constructor; assumption.
Qed.

Lemma keys_dset d k v : keys (dset d k v) = if memb k (keys d) then keys d else keys d ++ [k].
Proof.
  induction d as [|[a b] d IH]; simpl; [reflexivity|].
  rewrite (Nat.eqb_sym k a). destruct (Nat.eqb_spec a k) as [->|Hne]; simpl; [reflexivity|].
  rewrite IH. destruct (memb k (keys d)); reflexivity.
Qed.
Lemma keys_dset_NoDup d k v : NoDup (keys d) -> NoDup (keys (dset d k v)).
Proof.
  rewrite keys_dset. destruct (memb_spec k (keys d)) as [H|H]; [auto|]. intros Hnd.
  apply NoDup_app_iff. split; [exact Hnd|]. split; [repeat constructor; auto|].
  intros x Hx [<-|[]]. contradiction.
Qed.
Lemma build_dict_from_NoDup cl : forall i d, NoDup (keys d) -> NoDup (keys (build_dict_from i cl d)).
Proof.
  induction cl as [|c cl IH]; intros i d H; simpl; [exact H|]. apply IH.
  revert d H. induction c as [|x c IHc]; intros d H; simpl; [exact H|].
  apply IHc. now apply keys_dset_NoDup.
Qed.
Lemma build_dict_NoDup cl : NoDup (keys (build_dict cl)).
Proof. apply build_dict_from_NoDup. constructor. Qed.

Lemma move_keys_NoDup p x c p' :
  NoDup (keys (n2c p)) -> move_node p x c = Done p' -> NoDup (keys (n2c p')).
Proof.
  intros H. unfold move_node. destruct (dget (n2c p) x) as [ci|]; [|discriminate].
  destruct (Nat.eqb ci c); [congruence|].
  destruct (nth_error (cluster_list p) ci) as [si|]; [|discriminate].
  destruct (memb x si); [|discriminate].
  destruct (nth_error (upd (cluster_list p) ci (rem x si)) c); [|discriminate].
  intros E. injection E as <-. simpl. now apply keys_dset_NoDup.
Qed.

Lemma of_dict_roundtrip p :
  valid p -> NoDup (keys (n2c p)) -> 0 < num_nodes p ->
  exists p', part_of_dict (num_nodes p) (n2c p) = Some p' /\
    same_sets (cluster_list p') (filter nonempty (cluster_list p)) /\
    same_dict (n2c p') (build_dict (filter nonempty (cluster_list p))).
Proof.
  intros Hv Hnd Hn. unfold part_of_dict.
  destruct (dict_max (n2c p)) as [m|] eqn:Em.
  2:{ destruct (valid_node_dget p 0 Hv Hn) as [i Hi]. destruct (n2c p); discriminate. }
  eexists. split; [reflexivity|]. simpl.
  assert (Hm : forall kv, In kv (n2c p) -> snd kv <= m) by (intros kv; now apply dict_max_ge).
  assert (Hss : same_sets (filter nonempty (lists_of_dict m (n2c p))) (filter nonempty (cluster_list p))).
  { apply same_sets_pad. intros i x. rewrite lists_of_dict_spec by assumption. apply Hv. }
  split; [exact Hss|].
  assert (Hp : partitions (num_nodes p) (filter nonempty (cluster_list p))).
  { apply partitions_remove_empty. apply Hv. }
  apply (dict_matches_functional (filter nonempty (cluster_list p))).
  - intros x i. rewrite <- (same_sets_in_cluster _ _ i x Hss).
    apply build_dict_matches. intros a b y Ha Hb.
    apply (same_sets_in_cluster _ _ a y Hss) in Ha. apply (same_sets_in_cluster _ _ b y Hss) in Hb.
    destruct Hp as [_ [Hdis _]]. eapply Hdis; eauto.
  - apply build_dict_matches. apply Hp.
Qed.

Lemma of_list_roundtrip p :
  valid p -> no_empty (cluster_list p) ->
  cluster_list (part_of_list (num_nodes p) (cluster_list p)) = cluster_list p /\
  same_dict (n2c (part_of_list (num_nodes p) (cluster_list p))) (n2c p).
Proof.
  intros Hv Hne. unfold part_of_list. simpl. rewrite filter_nonempty_id by exact Hne.
  split; [reflexivity|]. apply (dict_matches_functional (cluster_list p)); [|apply Hv].
  apply build_dict_matches. apply Hv.
Qed.

(** * check_integrity *)
Lemma total_len_concat cl : total_len cl = length (concat cl).
Proof.
  unfold total_len.
  assert (H : forall s, fold_left (fun s (c : list nat) => s + length c) cl s = s + length (concat cl)).
  { induction cl as [|c cl IH]; intros s; simpl; [lia|]. rewrite IH, app_length. lia. }
  apply H.
Qed.
Lemma integrity_inter_nil cl :
  integrity_inter cl = [] <->
  (forall i j x, in_cluster cl i x -> in_cluster cl j x -> i = j).
Proof.
  unfold integrity_inter. split.
  - intros H i j x Hi Hj. destruct (Nat.eq_dec i j) as [|Hne]; [assumption|exfalso].
    apply in_cluster_nth in Hi, Hj. destruct Hi as [Hil Hi], Hj as [Hjl Hj].
    match type of H with ?l = _ => assert (Hin : In x l) end; [|rewrite H in Hin; exact Hin].
    apply in_flat_map. exists i. split; [apply seq_In_iff; exact Hil|].
    apply in_flat_map. exists j. split; [apply seq_In_iff; exact Hjl|].
    destruct (Nat.eqb_spec i j); [contradiction|].
    apply filter_In. split; [exact Hi|]. apply memb_In. exact Hj.
  - intros H. match goal with |- ?l = [] => destruct l as [|x l'] eqn:E end; [reflexivity|exfalso].
    assert (Hin : In x (x :: l')) by (left; reflexivity). rewrite <- E in Hin.
    apply in_flat_map in Hin. destruct Hin as [i [Hi Hin]].
    apply in_flat_map in Hin. destruct Hin as [j [Hj Hin]].
    apply seq_In_iff in Hi, Hj. destruct (Nat.eqb_spec i j); [destruct Hin|].
    apply filter_In in Hin. destruct Hin as [H1 H2]. apply memb_In in H2.
    apply n. apply (H i j x); apply in_cluster_nth; auto.
Qed.
Lemma check_integrity_iff p :
  check_integrity p = true <->
  (forall i j x, in_cluster (cluster_list p) i x -> in_cluster (cluster_list p) j x -> i = j) /\
  length (concat (cluster_list p)) = num_nodes p.
Proof.
  unfold check_integrity. rewrite andb_true_iff, negb_true_iff, Nat.eqb_eq, total_len_concat.
  rewrite <- integrity_inter_nil. destruct (integrity_inter (cluster_list p)); simpl;
    intuition congruence.
Qed.

Lemma in_cluster_filter_nonempty cl x :
  (exists i, in_cluster (filter nonempty cl) i x) <-> exists i, in_cluster cl i x.
Proof. rewrite !in_cluster_concat, concat_filter_nonempty. reflexivity. Qed.

Lemma checked_in_range_partition n cl p :
  Forall (@NoDup nat) cl ->
  (forall i x, in_cluster cl i x -> x < n) ->
  part_of_list_checked n cl = Some p -> partitions n cl /\ valid p.
Proof.
  intros Hs Hr. unfold part_of_list_checked.
  destruct (check_integrity (part_of_list n cl)) eqn:E; [|discriminate].
  intros H. injection H as <-. apply check_integrity_iff in E.
  unfold part_of_list in E. cbn [cluster_list num_nodes remove_empty_clusters] in E.
  rewrite concat_filter_nonempty in E. destruct E as [Hd Hlen].
  assert (Hnd : NoDup (concat cl)).
  { rewrite <- concat_filter_nonempty. apply NoDup_concat_iff. split; [|exact Hd].
    rewrite Forall_forall in *. intros c Hc. apply filter_In in Hc. apply Hs. tauto. }
  assert (Hp : partitions n cl).
  { apply partitions_perm. apply NoDup_Permutation_bis; [exact Hnd| |].
    - rewrite seq_length. lia.
    - intros x Hx. apply in_cluster_concat in Hx. destruct Hx as [i Hi].
      apply seq_In_iff. eapply Hr; eauto. }
  split; [exact Hp|]. now apply of_list_valid.
Qed.
Lemma checked_complete n cl : partitions n cl ->
  part_of_list_checked n cl = Some (part_of_list n cl).
Proof.
  intros H. unfold part_of_list_checked.
  replace (check_integrity (part_of_list n cl)) with true; [reflexivity|]. symmetry.
  apply check_integrity_iff. unfold part_of_list. cbn [cluster_list num_nodes remove_empty_clusters].
  split.
  - apply partitions_remove_empty in H. apply H.
  - rewrite concat_filter_nonempty. apply partitions_perm in H.
    rewrite (Permutation_length H). apply seq_length.
Qed.

(** * Indicator matrices *)
Lemma indicator_dense_fold r i l h :
  NoDup (map fst l) ->
  fold_left (fun h (ic : nat * list nat) => if Nat.eqb (fst ic) i && memb r (snd ic) then 1 else h) l h
  = if existsb (fun ic => Nat.eqb (fst ic) i && memb r (snd ic)) l then 1 else h.
Proof.
  revert h. induction l as [|a l IH]; intros h Hnd; simpl; [reflexivity|].
  simpl in Hnd. apply NoDup_cons_iff in Hnd. destruct Hnd as [Hn Hnd]. rewrite IH by exact Hnd.
  destruct (Nat.eqb (fst a) i && memb r (snd a)); simpl; [|reflexivity].
  destruct (existsb _ l); reflexivity.
Qed.
Lemma combine_seq_nth_error {A} (l : list A) s i c :
  In (i, c) (combine (seq s (length l)) l) <-> s <= i /\ nth_error l (i - s) = Some c.
Proof.
  revert s. induction l as [|a l IH]; intros s; simpl.
  - split; [intros []|]. intros [_ H]. destruct (i - s); discriminate.
  - rewrite IH. split.
    + intros [H|[H1 H2]].
      * injection H as <- <-. split; [lia|]. rewrite Nat.sub_diag. reflexivity.
      * split; [lia|]. replace (i - s) with (S (i - S s)) by lia. exact H2.
    + intros [H1 H2]. destruct (Nat.eq_dec i s) as [->|Hne].
      * rewrite Nat.sub_diag in H2. simpl in H2. left. congruence.
      * right. split; [lia|]. replace (i - s) with (S (i - S s)) in H2 by lia. exact H2.
Qed.
Lemma map_fst_combine_seq {A} (l : list A) s : map fst (combine (seq s (length l)) l) = seq s (length l).
Proof. revert s. induction l as [|a l IH]; intros s; simpl; [reflexivity|]. now rewrite IH. Qed.

Lemma indicator_dense_spec p r i :
  (in_cluster (cluster_list p) i r -> indicator_dense p r i = 1) /\
  (~ in_cluster (cluster_list p) i r -> indicator_dense p r i = 0).
Proof.
  unfold indicator_dense. rewrite indicator_dense_fold.
  2:{ rewrite map_fst_combine_seq. apply seq_NoDup. }
  match goal with |- context [existsb ?f ?l] => destruct (existsb f l) eqn:E end.
  - split; [auto|]. intros Hn. exfalso. apply Hn. apply existsb_exists in E.
    destruct E as [[j c] [Hin Hb]]. apply combine_seq_nth_error in Hin. simpl in Hb.
    apply andb_true_iff in Hb. destruct Hb as [Hj Hm]. apply Nat.eqb_eq in Hj. subst j.
    apply memb_In in Hm. exists c. rewrite Nat.sub_0_r in Hin. tauto.
  - split; [|auto]. intros [c [Hc Hin]]. exfalso.
    assert (Ht : existsb (fun ic => Nat.eqb (fst ic) i && memb r (snd ic))
             (combine (seq 0 (length (cluster_list p))) (cluster_list p)) = true).
    { apply existsb_exists. exists (i, c). split.
      - apply combine_seq_nth_error. rewrite Nat.sub_0_r. split; [lia|exact Hc].
      - simpl. rewrite Nat.eqb_refl. apply memb_In. exact Hin. }
    congruence.
Qed.

Lemma slice_set_length {A} (v : list A) : forall l a, length (slice_set l a v) = length l.
Proof. induction v as [|x v IH]; intros l a; simpl; [reflexivity|]. rewrite IH. apply upd_length. Qed.
Lemma nth_slice_set {A} (v : list A) : forall l a k d,
  a + length v <= length l ->
  nth k (slice_set l a v) d =
    if (a <=? k) && (k <? a + length v) then nth (k - a) v d else nth k l d.
Proof.
  induction v as [|x v IH]; intros l a k d Hl; simpl.
  - destruct (Nat.leb_spec a k), (Nat.ltb_spec k (a + 0)); try lia; reflexivity.
  - simpl in Hl. rewrite IH by (rewrite upd_length; lia). rewrite nth_upd.
    destruct (Nat.leb_spec (S a) k), (Nat.ltb_spec k (S a + length v)),
      (Nat.leb_spec a k), (Nat.ltb_spec k (a + S (length v))),
      (Nat.eqb_spec a k), (Nat.ltb_spec a (length l)); try lia; simpl; auto.
    + replace (k - a) with (S (k - S a)) by lia. reflexivity.
    + subst. rewrite Nat.sub_diag. reflexivity.
Qed.

Lemma indicator_loop_spec cl : forall start ind ind' ptr,
  start + length (concat cl) <= length ind ->
  indicator_csc_loop cl start ind = (ind', ptr) ->
  length ind' = length ind /\
  (forall k, k < start -> nth k ind' 0 = nth k ind 0) /\
  (forall i, i < length cl ->
     nth i ptr 0 = nth i (start :: ptr) 0 + length (nth i cl []) /\
     start <= nth i (start :: ptr) 0 /\
     (forall k, k < length (nth i cl []) ->
        nth (nth i (start :: ptr) 0 + k) ind' 0 = nth k (nth i cl []) 0)).
Proof.
  induction cl as [|c cl IH]; intros start ind ind' ptr Hl H; simpl in H.
  - injection H as <- <-. split; [reflexivity|]. split; [auto|]. intros i Hi. simpl in Hi. lia.
  - destruct (indicator_csc_loop cl (start + length c) (slice_set ind start c)) as [ind1 ptr1] eqn:E.
    injection H as <- <-. simpl in Hl. rewrite app_length in Hl.
    assert (Hl' : start + length c + length (concat cl) <= length (slice_set ind start c))
      by (rewrite slice_set_length; lia).
    destruct (IH _ _ _ _ Hl' E) as (HL & Hkeep & Hi).
    rewrite slice_set_length in HL. split; [exact HL|]. split.
    + intros k Hk. rewrite Hkeep by lia. rewrite nth_slice_set by lia.
      destruct (Nat.leb_spec start k); [lia|reflexivity].
    + intros [|i] Hlt.
      * simpl. repeat split; auto. intros k Hk. rewrite Hkeep by lia.
        rewrite nth_slice_set by lia.
        destruct (Nat.leb_spec start (start + k)), (Nat.ltb_spec (start + k) (start + length c)); try lia.
        simpl. replace (start + k - start) with k by lia. reflexivity.
      * assert (Hlt' : i < length cl) by (simpl in Hlt; lia).
        destruct (Hi i Hlt') as (H1 & H2 & H3). simpl nth. repeat split; try assumption.
        destruct i as [|i]; simpl nth in *; lia.
Qed.

Lemma filter_seq_shift_count (c : list nat) (a : nat) (g : nat -> nat) (r : nat) :
  (forall k, k < length c -> g (a + k) = nth k c 0) ->
  length (filter (fun k => Nat.eqb (g k) r) (seq a (length c))) = count_occ Nat.eq_dec c r.
Proof.
  revert a. induction c as [|x c IH]; intros a H; [reflexivity|].
  cbn [length seq filter]. assert (H0 : g a = x).
  { specialize (H 0). rewrite Nat.add_0_r in H. apply H. simpl. lia. }
  rewrite H0. simpl count_occ.
  assert (IH' : length (filter (fun k => Nat.eqb (g k) r) (seq (S a) (length c))) = count_occ Nat.eq_dec c r).
  { apply IH. intros k Hk. replace (S a + k) with (a + S k) by lia. apply H. simpl. lia. }
  destruct (Nat.eqb_spec x r), (Nat.eq_dec x r); try contradiction; simpl; congruence.
Qed.

Lemma indicator_sparse_spec p r i :
  valid p -> i < length (cluster_list p) ->
  (in_cluster (cluster_list p) i r -> indicator_sparse p r i = 1) /\
  (~ in_cluster (cluster_list p) i r -> indicator_sparse p r i = 0).
Proof.
  intros Hv Hi. unfold indicator_sparse.
  destruct (indicator_csc_loop (cluster_list p) 0 (repeat 0 (num_nodes p))) as [ind ptr] eqn:E.
  assert (Hlen : 0 + length (concat (cluster_list p)) <= length (repeat 0 (num_nodes p))).
  { rewrite (Permutation_length (valid_perm p Hv)), seq_length, repeat_length. lia. }
  destruct (indicator_loop_spec _ _ _ _ _ Hlen E) as (_ & _ & H).
  destruct (H i Hi) as (H1 & _ & H3). unfold csc_ones_entry.
  change (nth (S i) (0 :: ptr) 0) with (nth i ptr 0). rewrite H1.
  replace (nth i (0 :: ptr) 0 + length (nth i (cluster_list p) []) - nth i (0 :: ptr) 0)
    with (length (nth i (cluster_list p) [])) by lia.
  rewrite (filter_seq_shift_count (nth i (cluster_list p) []) _ (fun k => nth k ind 0) r H3).
  pose proof (valid_NoDup_nth p i Hv) as Hnd. split.
  - intros Hin. apply in_cluster_nth in Hin.
    apply NoDup_count_occ'; [exact Hnd|tauto].
  - intros Hin. apply count_occ_not_In. intros Hc. apply Hin. apply in_cluster_nth. auto.
Qed.

(** * Statements used by the property file *)
Lemma constructed_valid n p : constructed n p -> valid p /\ num_nodes p = n.
Proof.
  intros [|cl Hcl|d p' Hd Hp].
  - split; [apply default_valid|reflexivity].
  - split; [now apply of_list_valid|reflexivity].
  - split; [eapply of_dict_valid; eauto|]. unfold part_of_dict in Hp.
    destruct (dict_max d); [|discriminate]. injection Hp as <-. reflexivity.
Qed.
Lemma constructed_keys n p : constructed n p -> NoDup (keys (n2c p)).
Proof.
  intros [|cl Hcl|d p' Hd Hp]; try apply build_dict_NoDup.
  unfold part_of_dict in Hp. destruct (dict_max d); [|discriminate].
  injection Hp as <-. apply build_dict_NoDup.
Qed.
Lemma prun_keys os : forall p p', NoDup (keys (n2c p)) -> prun p os = Some p' -> NoDup (keys (n2c p')).
Proof.
  induction os as [|o os IH]; intros p p' H Hr; simpl in Hr; [congruence|].
  destruct (pstep p o) as [p1|] eqn:E; [|discriminate]. apply (IH p1); [|exact Hr].
  destruct o as [x c|]; simpl in E.
  - destruct (move_node p x c) eqn:Em; [|discriminate]. injection E as <-.
    eapply move_keys_NoDup; eauto.
  - injection E as <-. apply build_dict_NoDup.
Qed.

Lemma history_valid n p os p' :
  constructed n p -> prun p os = Some p' -> valid p' /\ num_nodes p' = n.
Proof.
  intros Hc Hr. destruct (constructed_valid _ _ Hc) as [Hv Hn].
  destruct (prun_valid _ _ _ Hv Hr) as [Hv' Hn']. split; [exact Hv'|congruence].
Qed.
Lemma history_total n p os :
  constructed n p -> ops_in_range p os -> exists p', prun p os = Some p'.
Proof. intros Hc. apply prun_in_range. now apply (constructed_valid n). Qed.

Lemma move_frame p x c p' :
  valid p -> x < num_nodes p -> move_node p x c = Done p' ->
  in_cluster (cluster_list p') c x /\
  (forall y, y <> x -> forall i, in_cluster (cluster_list p') i y <-> in_cluster (cluster_list p) i y) /\
  (forall y z, y <> x -> z <> x -> (together p' y z <-> together p y z)).
Proof.
  intros Hv Hx Hm. split; [eapply move_lands; eauto|]. split; [|eapply move_together; eauto].
  intros y Hy i. pose proof (proj2 Hv y i) as Hd1.
  destruct (move_node_done_valid _ _ _ _ Hv Hm) as [[_ Hd2] _]. specialize (Hd2 y i).
  rewrite <- Hd1, <- Hd2. unfold move_node in Hm.
  destruct (dget (n2c p) x) as [ci|]; [|discriminate].
  destruct (Nat.eqb ci c); [injection Hm as <-; reflexivity|].
  destruct (nth_error (cluster_list p) ci) as [si|]; [|discriminate].
  destruct (memb x si); [|discriminate].
  destruct (nth_error (upd (cluster_list p) ci (rem x si)) c); [|discriminate].
  injection Hm as <-. simpl. rewrite dget_dset.
  destruct (Nat.eqb_spec x y); [congruence|reflexivity].
Qed.

Lemma sub_filter_order (cl : list (list nat)) :
  exists keep, filter nonempty cl = filter keep cl /\ forall c, keep c = true <-> c <> [].
Proof. exists nonempty. split; [reflexivity|]. intros [|a c]; simpl; split; congruence. Qed.

Lemma clean_frame p :
  (forall x y, together (remove_empty_clusters p) x y <-> together p x y) /\
  no_empty (cluster_list (remove_empty_clusters p)) /\
  cluster_list (remove_empty_clusters p) = filter nonempty (cluster_list p) /\
  (valid p -> valid (remove_empty_clusters p)).
Proof.
  split; [intros; apply remove_empty_together|]. split; [apply remove_empty_no_empty|].
  split; [reflexivity|apply remove_empty_valid].
Qed.

Lemma roundtrip_dict n p os p' :
  constructed n p -> 0 < n -> prun p os = Some p' -> no_empty (cluster_list p') ->
  exists q, part_of_dict n (n2c p') = Some q /\
    same_sets (cluster_list q) (cluster_list p') /\ same_dict (n2c q) (n2c p').
Proof.
  intros Hc Hn Hr Hne. destruct (history_valid _ _ _ _ Hc Hr) as [Hv HN].
  pose proof (prun_keys _ _ _ (constructed_keys _ _ Hc) Hr) as Hk. subst n.
  destruct (of_dict_roundtrip p' Hv Hk Hn) as (q & H1 & H2 & H3). exists q.
  rewrite filter_nonempty_id in * by exact Hne. split; [exact H1|]. split; [exact H2|].
  intros x. rewrite H3. apply (dict_matches_functional (cluster_list p')); [|apply Hv].
  apply build_dict_matches. apply Hv.
Qed.
Lemma roundtrip_list p :
  valid p -> no_empty (cluster_list p) ->
  cluster_list (part_of_list (num_nodes p) (cluster_list p)) = cluster_list p /\
  same_dict (n2c (part_of_list (num_nodes p) (cluster_list p))) (n2c p).
Proof. apply of_list_roundtrip. Qed.

(** sums of indicator rows and columns *)
Definition sum_nat (f : nat -> nat) (n : nat) : nat := fold_right (fun i s => f i + s) 0 (seq 0 n).
Lemma fold_sum_indicator (f : nat -> nat) (k : nat) l :
  NoDup l -> In k l -> f k = 1 -> (forall i, i <> k -> f i = 0) ->
  fold_right (fun i s => f i + s) 0 l = 1.
Proof.
  intros Hnd Hin Hk H0.
  assert (Hz : forall l, ~ In k l -> fold_right (fun i s => f i + s) 0 l = 0).
  { induction l0 as [|a l0 IH]; intros Hn; simpl; [reflexivity|].
    rewrite H0, IH; [reflexivity|intros H; apply Hn; right; exact H|intros ->; apply Hn; left; reflexivity]. }
  induction l as [|a l IH]; [destruct Hin|]. simpl.
  apply NoDup_cons_iff in Hnd. destruct Hnd as [Hna Hnd].
  destruct (Nat.eq_dec a k) as [->|Hne].
  - rewrite Hk, Hz by exact Hna. reflexivity.
  - rewrite H0 by exact Hne. destruct Hin as [->|Hin]; [contradiction|]. simpl. auto.
Qed.
Lemma indicator_row_sum p r : valid p -> r < num_nodes p ->
  sum_nat (fun i => indicator_dense p r i) (length (cluster_list p)) = 1.
Proof.
  intros Hv Hr. pose proof Hv as [[_ [Hdis Hcov]] _]. apply Hcov in Hr. destruct Hr as [k Hk].
  unfold sum_nat. apply (fold_sum_indicator _ k).
  - apply seq_NoDup.
  - apply seq_In_iff. eapply in_cluster_lt; eauto.
  - now apply indicator_dense_spec.
  - intros i Hi. apply indicator_dense_spec. intros Hc. apply Hi. eapply Hdis; eauto.
Qed.
Lemma fold_sum_filter (q : nat -> bool) l :
  fold_right (fun i s => (if q i then 1 else 0) + s) 0 l = length (filter q l).
Proof. induction l as [|a l IH]; simpl; [reflexivity|]. rewrite IH. destruct (q a); reflexivity. Qed.
Lemma fold_sum_ext (f g : nat -> nat) l : (forall i, In i l -> f i = g i) ->
  fold_right (fun i s => f i + s) 0 l = fold_right (fun i s => g i + s) 0 l.
Proof.
  induction l as [|a l IH]; intros H; simpl; [reflexivity|].
  rewrite H by (left; reflexivity). rewrite IH; [reflexivity|]. intros i Hi. apply H. right. exact Hi.
Qed.
Lemma indicator_col_sum p i : valid p -> i < length (cluster_list p) ->
  sum_nat (fun r => indicator_dense p r i) (num_nodes p) = length (nth i (cluster_list p) []).
Proof.
  intros Hv Hi. unfold sum_nat.
  rewrite (fold_sum_ext _ (fun r => if memb r (nth i (cluster_list p) []) then 1 else 0)).
  - rewrite fold_sum_filter. apply Permutation_length. apply NoDup_perm_set.
    + apply filter_NoDup, seq_NoDup.
    + now apply valid_NoDup_nth.
    + intros x. rewrite filter_In, memb_In, seq_In_iff. split; [tauto|]. intros H. split; [|exact H].
      apply Hv. exists i. apply in_cluster_nth. auto.
  - intros r _. destruct (memb_spec r (nth i (cluster_list p) [])) as [H|H].
    + apply indicator_dense_spec. apply in_cluster_nth. auto.
    + apply indicator_dense_spec. intros Hc. apply H. apply in_cluster_nth in Hc. tauto.
Qed.
Lemma indicator_agree p r i : valid p -> i < length (cluster_list p) ->
  indicator_sparse p r i = indicator_dense p r i.
Proof.
  intros Hv Hi.
  assert (Hdec : in_cluster (cluster_list p) i r \/ ~ in_cluster (cluster_list p) i r).
  { rewrite in_cluster_nth. destruct (memb_spec r (nth i (cluster_list p) [])); tauto. }
  destruct (indicator_sparse_spec p r i Hv Hi) as [S1 S0].
  destruct (indicator_dense_spec p r i) as [D1 D0].
  destruct Hdec as [H|H]; [rewrite S1, D1|rewrite S0, D0]; auto.
Qed.
Lemma move_unknown p x c : valid p -> num_nodes p <= x -> move_node p x c = Raised p.
Proof.
  intros Hv Hx. unfold move_node. destruct (dget (n2c p) x) as [i|] eqn:E; [|reflexivity].
  pose proof (valid_dget_node p x i Hv E). lia.
Qed.

(** decision procedure for closed examples *)
Definition partitionsb (n : nat) (cl : list (list nat)) : bool :=
  Nat.eqb (length (concat cl)) n && forallb (fun x => memb x (concat cl)) (seq 0 n).
Lemma partitionsb_sound n cl : partitionsb n cl = true -> partitions n cl.
Proof.
  unfold partitionsb. rewrite andb_true_iff, Nat.eqb_eq, forallb_forall. intros [Hl Hin].
  apply partitions_perm. apply Permutation_sym. apply NoDup_Permutation_bis.
  - apply seq_NoDup.
  - rewrite seq_length. lia.
  - intros x Hx. apply memb_In. now apply Hin.
Qed.
