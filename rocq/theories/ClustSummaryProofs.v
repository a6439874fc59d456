(** What is saved of the runs. *)
From Verif Require Import Base PartitionModel PartitionSpec LouvainModel LouvainSpec SparseModel AutocovModel MultiModel ClustModel ClustSpec.
From Coq Require Import Sorting.Sorted.
Local Open Scope bool_scope.

(** ** Sorting *)
Section Sort.
Context {A : Type} (leb : A -> A -> bool).
Hypothesis leb_total : forall x y, leb x y = true \/ leb y x = true.
Hypothesis leb_trans : forall x y z, leb x y = true -> leb y z = true -> leb x z = true.
Lemma insert_perm x l : Permutation (insert_by leb x l) (x :: l).
Proof.
  induction l as [|y l IH]; [apply Permutation_refl|]. cbn [insert_by]. destruct (leb x y); [apply Permutation_refl|].
  apply (Permutation_trans (perm_skip y IH)). apply perm_swap.
Qed.
Lemma sort_perm l : Permutation (sort_by leb l) l.
Proof. unfold sort_by. induction l as [|x l IH]; [constructor|]. cbn [fold_right]. apply (Permutation_trans (insert_perm x _)). now constructor. Qed.
Lemma insert_sorted x l : StronglySorted (fun a b => leb a b = true) l -> StronglySorted (fun a b => leb a b = true) (insert_by leb x l).
Proof.
  induction l as [|y l IH]; intros H; cbn [insert_by]; [repeat constructor|]. inversion H as [|? ? Hs Hf]; subst.
  destruct (leb x y) eqn:E.
  - constructor; [exact H|]. constructor; [exact E|]. rewrite Forall_forall in *. intros z Hz. now apply (leb_trans x y z E), Hf.
  - constructor; [now apply IH|]. assert (E' : leb y x = true) by (destruct (leb_total x y) as [L|L]; [congruence|exact L]).
    rewrite Forall_forall in *. intros z Hz. apply (Permutation_in _ (insert_perm x l)) in Hz. destruct Hz as [<-|Hz]; [exact E'|now apply Hf].
Qed.
Lemma sort_sorted l : StronglySorted (fun a b => leb a b = true) (sort_by leb l).
Proof. unfold sort_by. induction l as [|x l IH]; [constructor|]. cbn [fold_right]. now apply insert_sorted. Qed.
Lemma sort_In x l : In x (sort_by leb l) <-> In x l.
Proof. split; apply Permutation_in; [apply sort_perm|apply Permutation_sym, sort_perm]. Qed.
Hypothesis leb_antisym : forall x y, leb x y = true -> leb y x = true -> x = y.
Lemma sorted_perm_eq : forall l m, StronglySorted (fun a b => leb a b = true) l -> StronglySorted (fun a b => leb a b = true) m -> Permutation l m -> l = m.
Proof.
  induction l as [|x l IH]; intros m Hl Hm HP; [apply Permutation_nil in HP; now subst|].
  destruct m as [|y m]; [apply Permutation_sym, Permutation_nil in HP; discriminate|].
  inversion Hl as [|? ? Sl Fl]; subst. inversion Hm as [|? ? Sm Fm]; subst. rewrite Forall_forall in Fl, Fm.
  assert (E : x = y).
  { assert (Hx : In x (y :: m)) by (apply (Permutation_in _ HP); now left).
    assert (Hy : In y (x :: l)) by (apply (Permutation_in _ (Permutation_sym HP)); now left).
    destruct Hx as [->|Hx]; [reflexivity|]. destruct Hy as [->|Hy]; [reflexivity|]. apply leb_antisym; [now apply Fl|now apply Fm]. }
  subst y. f_equal. apply IH; [exact Sl|exact Sm|]. now apply Permutation_cons_inv in HP.
Qed.
Lemma sort_perm_eq l m : Permutation l m -> sort_by leb l = sort_by leb m.
Proof.
  intros H. apply sorted_perm_eq; try apply sort_sorted. apply (Permutation_trans (sort_perm l)). apply (Permutation_trans H). apply Permutation_sym, sort_perm.
Qed.
End Sort.

Lemma nat_total x y : (x <=? y) = true \/ (y <=? x) = true.
Proof. rewrite !Nat.leb_le. lia. Qed.
Lemma nat_trans x y z : (x <=? y) = true -> (y <=? z) = true -> (x <=? z) = true.
Proof. rewrite !Nat.leb_le. lia. Qed.
Lemma nat_antisym x y : (x <=? y) = true -> (y <=? x) = true -> x = y.
Proof. rewrite !Nat.leb_le. lia. Qed.
Lemma lex_total : forall a b, lex_leb a b = true \/ lex_leb b a = true.
Proof.
  induction a as [|x a IH]; intros b; [now left|]. destruct b as [|y b]; [now right|]. cbn [lex_leb].
  destruct (Nat.ltb_spec x y); [now left|]. destruct (Nat.ltb_spec y x); [now right|]. replace y with x by lia. rewrite Nat.eqb_refl. cbn [orb andb]. apply IH.
Qed.
Lemma lex_trans : forall a b c, lex_leb a b = true -> lex_leb b c = true -> lex_leb a c = true.
Proof.
  induction a as [|x a IH]; intros b c H1 H2; [reflexivity|]. destruct b as [|y b]; [discriminate|]. destruct c as [|z c]; [discriminate|]. cbn [lex_leb] in *.
  destruct (Nat.ltb_spec x z); [reflexivity|]. cbn [orb].
  destruct (Nat.ltb_spec x y); [destruct (Nat.ltb_spec y z); [lia|]; destruct (Nat.eqb_spec y z); [lia|discriminate]|].
  destruct (Nat.eqb_spec x y); [subst|discriminate]. destruct (Nat.ltb_spec y z); [lia|]. destruct (Nat.eqb_spec y z); [|discriminate]. cbn [orb andb] in *. now apply (IH b).
Qed.
Lemma lex_antisym : forall a b, lex_leb a b = true -> lex_leb b a = true -> a = b.
Proof.
  induction a as [|x a IH]; intros [|y b] H1 H2; try discriminate; [reflexivity|]. cbn [lex_leb] in *.
  destruct (Nat.ltb_spec x y); [destruct (Nat.ltb_spec y x); [lia|]; destruct (Nat.eqb_spec y x); [lia|discriminate]|].
  destruct (Nat.eqb_spec x y); [subst|discriminate]. rewrite Nat.ltb_irrefl, Nat.eqb_refl in H2. cbn [orb andb] in *. f_equal. now apply IH.
Qed.
Definition sort_nat := sort_by Nat.leb.
Lemma sort_same_set c : same_set (sort_nat c) c.
Proof. intros x. apply sort_In. Qed.

(** ** Canonical forms *)
Lemma part_nodup (cl : list (list nat)) : NoDup (concat cl) -> forall c, In c cl -> NoDup c.
Proof.
  induction cl as [|d cl IH]; intros H c Hc; [destruct Hc|]. cbn [concat] in H. destruct Hc as [<-|Hc].
  - clear IH. induction d as [|x d IH]; [constructor|]. cbn [app] in H. inversion H; subst. constructor; [intros N; apply H2, in_or_app; now left|now apply IH].
  - apply IH; [|exact Hc]. clear - H. induction d as [|x d IH]; [exact H|]. cbn [app] in H. inversion H; subst. now apply IH.
Qed.
Lemma sorted_nodup cl : NoDup (concat cl) -> no_empty cl -> NoDup (map sort_nat cl).
Proof.
  induction cl as [|c cl IH]; intros Hnd Hne; [constructor|]. cbn [concat] in Hnd. inversion Hne as [|? ? Hc Hne']; subst. cbn [map]. constructor.
  - intros N. apply in_map_iff in N. destruct N as (d & E & Hd). destruct c as [|x c]; [contradiction|].
    assert (Hx : In x d) by (apply sort_same_set; rewrite E; apply sort_same_set; now left).
    cbn [app] in Hnd. inversion Hnd; subst. apply H1, in_or_app. right. apply in_concat. eauto.
  - apply IH; [|exact Hne']. clear - Hnd. induction c as [|x c IH]; [exact Hnd|]. cbn [app] in Hnd. inversion Hnd; subst. now apply IH.
Qed.
Lemma canonical_complete cl cl' : NoDup (concat cl) -> NoDup (concat cl') -> no_empty cl -> no_empty cl' -> same_partition cl cl' -> canonical cl = canonical cl'.
Proof.
  intros H1 H2 N1 N2 [S1 S2]. unfold canonical. apply (sort_perm_eq lex_leb lex_total lex_trans lex_antisym). fold sort_nat.
  assert (E : forall c d, In c cl -> In d cl' -> same_set c d -> sort_nat c = sort_nat d).
  { intros c d Hc Hd HS. apply (sort_perm_eq Nat.leb nat_total nat_trans nat_antisym). apply NoDup_Permutation; [now apply (part_nodup cl)|now apply (part_nodup cl')|exact HS]. }
  apply NoDup_Permutation; [now apply sorted_nodup|now apply sorted_nodup|]. intros x. rewrite !in_map_iff. split; intros (c & <- & Hc).
  - destruct (S1 c Hc) as (d & Hd & HS). exists d. split; [|exact Hd]. symmetry. now apply E.
  - destruct (S2 c Hc) as (d & Hd & HS). exists d. split; [|exact Hd]. now apply E.
Qed.
Lemma same_set_sym c d : same_set c d -> same_set d c. Proof. intros H x. now rewrite (H x). Qed.
Lemma same_set_trans c d e : same_set c d -> same_set d e -> same_set c e. Proof. intros H1 H2 x. now rewrite (H1 x). Qed.
Lemma same_partition_sym a b : same_partition a b -> same_partition b a.
Proof. intros [H1 H2]. split; intros c Hc; [destruct (H2 c Hc) as (d & Hd & E)|destruct (H1 c Hc) as (d & Hd & E)]; exists d; (split; [exact Hd|now apply same_set_sym]). Qed.
Lemma same_partition_trans a b c : same_partition a b -> same_partition b c -> same_partition a c.
Proof.
  intros [H1 H2] [H3 H4]. split.
  - intros x Hx. destruct (H1 x Hx) as (y & Hy & E). destruct (H3 y Hy) as (z & Hz & E'). exists z. split; [exact Hz|now apply (same_set_trans x y)].
  - intros z Hz. destruct (H4 z Hz) as (y & Hy & E). destruct (H2 y Hy) as (x & Hx & E'). exists x. split; [exact Hx|now apply (same_set_trans x y)].
Qed.
Lemma canonical_same cl : same_partition (canonical cl) cl.
Proof.
  unfold canonical. fold sort_nat. split.
  - intros c Hc. apply sort_In in Hc. apply in_map_iff in Hc. destruct Hc as (d & <- & Hd). exists d. split; [exact Hd|apply sort_same_set].
  - intros d Hd. exists (sort_nat d). split; [|apply sort_same_set]. apply sort_In. now apply in_map.
Qed.

(** ** Counting *)
Lemma list_eqb_spec {A} (eqb : A -> A -> bool) : (forall x y, eqb x y = true <-> x = y) -> forall a b, list_eqb eqb a b = true <-> a = b.
Proof.
  intros H. induction a as [|x a IH]; intros [|y b]; cbn [list_eqb]; try (split; [discriminate|discriminate]); [tauto|].
  rewrite andb_true_iff, H, IH. split; [intros [-> ->]; reflexivity|intros E; now injection E].
Qed.
Lemma tuple_eqb_spec a b : tuple_eqb a b = true <-> a = b.
Proof. apply list_eqb_spec. intros x y. apply list_eqb_spec. apply Nat.eqb_eq. Qed.
Definition key := list (list nat).
Definition key_dec : forall a b : key, {a = b} + {a <> b} := list_eq_dec (list_eq_dec Nat.eq_dec).
Lemma count_one_keys k l : forall k', In k' (map fst (count_one k l)) <-> k' = k \/ In k' (map fst l).
Proof.
  induction l as [|[k0 m] l IH]; intros k'; cbn [count_one map fst]; [cbn; intuition|].
  destruct (tuple_eqb k0 k) eqn:E; cbn [map fst].
  - apply tuple_eqb_spec in E. subst. cbn. intuition.
  - cbn [In]. rewrite IH. intuition.
Qed.
Lemma count_one_nodup k l : NoDup (map fst l) -> NoDup (map fst (count_one k l)).
Proof.
  induction l as [|[k0 m] l IH]; intros H; cbn [count_one map fst]; [repeat constructor; intros []|].
  cbn [map fst] in H. inversion H; subst. destruct (tuple_eqb k0 k) eqn:E; cbn [map fst]; [exact H|]. constructor; [|now apply IH].
  intros N. apply count_one_keys in N. destruct N as [->|N]; [|contradiction]. assert (X : tuple_eqb k k = true) by now apply tuple_eqb_spec. congruence.
Qed.
Lemma count_one_counts k l (f : key -> nat) : NoDup (map fst l) -> (forall k' m, In (k', m) l -> m = f k') -> (~ In k (map fst l) -> f k = 0) ->
  forall k' m, In (k', m) (count_one k l) -> m = if key_dec k k' then S (f k') else f k'.
Proof.
  induction l as [|[k0 m0] l IH]; intros Hnd Hf H0 k' m; cbn [count_one].
  - intros [E|[]]. injection E as <- <-. destruct (key_dec k k); [|congruence]. now rewrite H0 by (intros []).
  - cbn [map fst] in Hnd. inversion Hnd as [|? ? Hk Hl]; subst. destruct (tuple_eqb k0 k) eqn:E.
    + apply tuple_eqb_spec in E. subst k0. intros [E|Hin].
      * injection E as <- <-. destruct (key_dec k k); [|congruence]. f_equal. apply Hf. now left.
      * destruct (key_dec k k') as [->|N]; [|apply Hf; now right]. exfalso. apply Hk. now apply (in_map fst) in Hin.
    + intros [Eq|Hin].
      * injection Eq as <- <-. destruct (key_dec k k0) as [->|N]; [|apply Hf; now left]. assert (X : tuple_eqb k0 k0 = true) by now apply tuple_eqb_spec. congruence.
      * apply IH; [exact Hl|intros; apply Hf; now right| |exact Hin]. intros N. apply H0. cbn [map fst In]. intros [->|X]; [|contradiction].
        assert (Y : tuple_eqb k k = true) by now apply tuple_eqb_spec. congruence.
Qed.
Lemma counter_spec l : NoDup (map fst (counter l)) /\ (forall k, In k (map fst (counter l)) <-> In k l) /\
  forall k m, In (k, m) (counter l) -> m = count_occ key_dec l k.
Proof.
  unfold counter. induction l as [|x l IH] using rev_ind; [split; [constructor|split; [intros k; reflexivity|intros k m []]]|].
  rewrite fold_left_app. cbn [fold_left]. destruct IH as (H1 & H2 & H3). split; [now apply count_one_nodup|]. split.
  - intros k. rewrite count_one_keys, H2, in_app_iff. cbn. intuition.
  - intros k m Hin. rewrite count_occ_app. cbn [count_occ].
    assert (E : m = if key_dec x k then S (count_occ key_dec l k) else count_occ key_dec l k).
    { apply (count_one_counts x _ (count_occ key_dec l) H1 H3); [|exact Hin]. intros N. apply count_occ_not_In. now rewrite <- H2. }
    rewrite E. destruct (key_dec x k); [now rewrite Nat.add_1_r|now rewrite Nat.add_0_r].
Qed.

(** ** Maxima *)
Lemma argmax_from_spec l : forall i best x pre, length pre = i -> nth best pre 0%num = x -> best < i -> (forall y, In y pre -> (y <= x)%num) ->
  let k := argmax_from i best x l in k < i + length l /\ nth k (pre ++ l) 0%num = fold_left (fun m y => if qltb m y then y else m) l x /\
  forall y, In y (pre ++ l) -> (y <= nth k (pre ++ l) 0)%num.
Proof.
  induction l as [|y l IH]; intros i best x pre Hl Hx Hb Hm; cbn [argmax_from fold_left].
  - rewrite app_nil_r. cbn zeta. split; [lia|]. split; [exact Hx|]. intros y Hy. rewrite Hx. now apply Hm.
  - replace (pre ++ y :: l) with ((pre ++ [y]) ++ l) by (now rewrite <- app_assoc). destruct (qltb_spec x y) as [L|L].
    + destruct (IH (S i) i y (pre ++ [y])) as (K1 & K2 & K3).
      * rewrite app_length. cbn. lia.
      * rewrite app_nth2 by lia. rewrite Hl, Nat.sub_diag. reflexivity.
      * lia.
      * intros z Hz. apply in_app_iff in Hz. destruct Hz as [Hz|[<-|[]]]; [|apply Qcle_refl]. apply Qcle_trans with x; [now apply Hm|now apply Qclt_le_weak].
      * cbn zeta. split; [cbn [length]; lia|]. split; [exact K2|exact K3].
    + destruct (IH (S i) best x (pre ++ [y])) as (K1 & K2 & K3).
      * rewrite app_length. cbn. lia.
      * rewrite app_nth1 by lia. exact Hx.
      * lia.
      * intros z Hz. apply in_app_iff in Hz. destruct Hz as [Hz|[<-|[]]]; [now apply Hm|]. now apply Qcnot_lt_le.
      * cbn zeta. split; [cbn [length]; lia|]. split; [exact K2|exact K3].
Qed.
Lemma argmax_spec l : l <> [] -> argmax l < length l /\ nth (argmax l) l 0%num = max_of l /\ forall y, In y l -> (y <= max_of l)%num.
Proof.
  destruct l as [|x l]; [congruence|]. intros _. unfold argmax, max_of.
  destruct (argmax_from_spec l 1 0 x [x] eq_refl eq_refl ltac:(lia)) as (K1 & K2 & K3); [intros y [<-|[]]; apply Qcle_refl|].
  cbn [app] in *. split; [cbn [length]; lia|]. split; [exact K2|]. intros y Hy. rewrite <- K2. now apply K3.
Qed.

(** ** Files *)
Lemma history_no_temp d : file_history false d -> f_temp d = None.
Proof.
  induction 1 as [|d b s q Hd IH Hb]; [reflexivity|]. destruct b; [now specialize (Hb eq_refl)|].
  unfold worker. destruct (f_saved d); [destruct q; exact IH|]. rewrite IH. destruct s as [s|]; [|destruct q; exact IH]. destruct q as [|[|q]]; exact IH.
Qed.
