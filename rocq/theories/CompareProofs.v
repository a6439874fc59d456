(** Lemmas on comparing and sorting clusterings. *)
From Verif Require Import PartitionModel PartitionSpec PartitionProofs InfoModel InfoSpec CompareModel CompareSpec Base.

(** * Sorting *)
Lemma NoDup_snoc {A} (l : list A) a : NoDup l -> ~ In a l -> NoDup (l ++ [a]).
Proof.
  intros H Ha. apply (Permutation_NoDup (l := a :: l)); [apply Permutation_cons_append|now constructor].
Qed.
Lemma filter_filter {A} (p q : A -> bool) l : filter q (filter p l) = filter (fun x => (p x && q x)%bool) l.
Proof.
  induction l as [|a l IH]; [reflexivity|]. cbn [filter]. destruct (p a); cbn [andb filter]; [|exact IH]. now rewrite IH.
Qed.
Lemma qleb_true x y : (x <= y)%num -> qleb x y = true.
Proof. destruct (qleb_spec x y); [reflexivity|contradiction]. Qed.
Lemma all_some_length {A} (l : list (option A)) r : all_some l = Some r -> length r = length l.
Proof.
  revert r. induction l as [|[a|] l IH]; intros r; cbn [all_some]; [intros [= <-]; reflexivity| |discriminate].
  destruct (all_some l) as [s|]; [|discriminate]. intros [= <-]. cbn [length]. now rewrite (IH s).
Qed.
Lemma all_some_nth {A} (l : list (option A)) r d i : all_some l = Some r -> i < length l -> nth i l None = Some (nth i r d).
Proof.
  revert r i. induction l as [|[a|] l IH]; intros r i; cbn [all_some length]; [lia| |discriminate].
  destruct (all_some l) as [s|] eqn:E; [|discriminate]. intros [= <-] Hi. destruct i as [|i]; [reflexivity|]. cbn [nth].
  apply IH; [reflexivity|lia].
Qed.
Lemma all_some_intro {A B} (f : A -> option B) l : (forall a, In a l -> f a <> None) -> exists r, all_some (map f l) = Some r.
Proof.
  induction l as [|a l IH]; intros H; [eexists; reflexivity|]. cbn [map all_some].
  destruct (f a) as [b|] eqn:E; [|exfalso; apply (H a); [now left|assumption]].
  destruct IH as [r ->]; [intros; apply H; now right|]. eexists; reflexivity.
Qed.

(** the matrix of similarities *)
Definition jval (a b : list nat) : num := (qn (inter_len a b) / qn (length a + length b - inter_len a b))%num.
Lemma jacc_some a b : a <> [] -> jacc a b = Some (jval a b).
Proof.
  intros H. unfold jacc, jval. assert (L : inter_len a b <= length a).
  { unfold inter_len. clear. induction a as [|x a IH]; [apply le_n|]. cbn [filter]. destruct (memb x b); cbn [length]; lia. }
  destruct (Nat.eqb_spec (length a + length b - inter_len a b) 0) as [E|E]; [|reflexivity].
  exfalso. destruct a as [|x a]; [congruence|].
  assert (length b = 0) by lia. destruct b; [|discriminate]. unfold inter_len in E.
  assert (F : filter (fun y => memb y []) (x :: a) = []).
  { clear. induction (x :: a) as [|y l IH]; [reflexivity|exact IH]. }
  rewrite F in E. cbn in E. lia.
Qed.
Lemma similarity_spec cls model : ~ In [] cls -> exists M, similarity cls model = Some M /\ length M = length cls /\
  (forall i j, i < length cls -> j < length model -> nth j (nth i M []) 0%num = jval (nth i cls []) (nth j model [])) /\
  (forall i, i < length cls -> length (nth i M []) = length model).
Proof.
  intros H. unfold similarity.
  assert (HR : forall c, In c cls -> similarity_row model c = Some (map (jval c) model)).
  { intros c Hc. unfold similarity_row. assert (c <> []) by (intros ->; contradiction). clear Hc.
    induction model as [|m model IH]; [reflexivity|]. cbn [map all_some]. rewrite jacc_some by assumption. now rewrite IH. }
  exists (map (fun c => map (jval c) model) cls). split; [|split; [now rewrite map_length|split]].
  - clear H. induction cls as [|c cls IH]; [reflexivity|]. cbn [map all_some]. rewrite HR by now left.
    rewrite IH; [reflexivity|]. intros; apply HR; now right.
  - intros i j Hi Hj. rewrite (nth_indep _ [] ((fun c => map (jval c) model) [])) by (now rewrite map_length).
    rewrite (map_nth (fun c => map (jval c) model)).
    rewrite (nth_indep _ 0%num (jval (nth i cls []) [])) by (now rewrite map_length). now rewrite map_nth.
  - intros i Hi. rewrite (nth_indep _ [] ((fun c => map (jval c) model) [])) by (now rewrite map_length).
    rewrite (map_nth (fun c => map (jval c) model)). now rewrite map_length.
Qed.
Lemma inter_len_le a b : inter_len a b <= length a.
Proof. unfold inter_len. induction a as [|x a IH]; [apply le_n|]. cbn [filter]. destruct (memb x b); cbn [length]; lia. Qed.
Lemma jval_nonneg a b : a <> [] -> (0 <= jval a b)%num.
Proof.
  intros H. unfold jval. apply qdiv_nonneg; [apply qn_nonneg|].
  rewrite <- qn_0. apply qn_lt. pose proof (inter_len_le a b) as L. pose proof (jacc_some a b H) as J. unfold jacc in J.
  destruct (Nat.eqb_spec (length a + length b - inter_len a b) 0); [discriminate|lia].
Qed.
Lemma jval_pos a b : meets a b -> (0 < jval a b)%num.
Proof.
  intros (x & Ha & Hb). assert (I : 0 < inter_len a b).
  { unfold inter_len. assert (In x (filter (fun y => memb y b) a)) by (apply filter_In; split; [|apply memb_In]; assumption).
    destruct (filter _ a); [contradiction|cbn; lia]. }
  pose proof (inter_len_le a b). assert (Hne : a <> []) by (intros ->; contradiction).
  unfold jval, Qcdiv. apply qmult_pos; [rewrite <- qn_0; now apply qn_lt|].
  apply qinv_pos. rewrite <- qn_0. apply qn_lt. destruct b; [contradiction|cbn [length]; lia].
Qed.
Lemma jval_zero a b : ~ meets a b -> jval a b = 0%num.
Proof.
  intros H. unfold jval. assert (I : inter_len a b = 0).
  { unfold inter_len. destruct (filter (fun y => memb y b) a) as [|x l] eqn:E; [reflexivity|]. exfalso. apply H. exists x.
    assert (In x (filter (fun y => memb y b) a)) by (rewrite E; now left). apply filter_In in H0 as [? ?]. split; [assumption|]. now apply memb_In. }
  rewrite I, qn_0. unfold Qcdiv. ring.
Qed.

Lemma num_max_spec l : l <> [] -> In (num_max l) l /\ forall x, In x l -> (x <= num_max l)%num.
Proof.
  destruct l as [|a l]; [congruence|]. intros _. unfold num_max. cbn [hd tl]. revert a.
  induction l as [|b l IH]; intros a; cbn [fold_left].
  - split; [now left|]. intros x [<- | []]. qlra.
  - destruct (qltb_spec a b) as [E|E].
    + destruct (IH b) as [H1 H2]. split; [right; exact H1|].
      intros x [<- | Hx]; [|now apply H2]. specialize (H2 b (or_introl eq_refl)). qlra.
    + destruct (IH a) as [H1 H2]. split; [destruct H1 as [<- | H1]; [now left|right; now right]|].
      intros x [<- | [<- | Hx]]; [apply H2; now left| |apply H2; now right]. specialize (H2 a (or_introl eq_refl)). qlra.
Qed.

(** one class: clusters are appended that pass a test *)
Definition add_new (h : nat -> nat) (p : nat -> bool) (L new : list nat) : list nat :=
  fold_left (fun new c => if (p c && negb (memb (h c) new))%bool then new ++ [h c] else new) L new.
Lemma add_new_in h p L new x : In x (add_new h p L new) <-> In x new \/ exists c, In c L /\ p c = true /\ h c = x.
Proof.
  unfold add_new. revert new. induction L as [|c L IH]; intros new; cbn [fold_left].
  - split; [auto|]. intros [H | (c & [] & _)]. assumption.
  - rewrite IH. clear IH. destruct (p c) eqn:Ep; cbn [andb].
    + destruct (memb (h c) new) eqn:Em; cbn [negb].
      * apply memb_In in Em. split; [intros [H | (d & H & K)]; [now left|right; exists d; split; [now right|assumption]]|].
        intros [H | (d & [<- | H] & K)]; [now left|destruct K as [_ <-]; now left|right; now exists d].
      * rewrite in_app_iff. cbn [In].
        split; [intros [[H | [H | []]] | (d & H & K)]; [now left|right; exists c; now split; [left|split]|right; exists d; split; [now right|assumption]]|].
        intros [H | (d & [<- | H] & K)]; [now left; left|left; right; left; now destruct K|right; now exists d].
    + split; [intros [H | (d & H & K)]; [now left|right; exists d; split; [now right|assumption]]|].
      intros [H | (d & [<- | H] & K1 & K2)]; [now left|congruence|right; now exists d].
Qed.
Lemma add_new_NoDup h p L new : NoDup new -> NoDup (add_new h p L new).
Proof.
  unfold add_new. revert new. induction L as [|c L IH]; intros new H; cbn [fold_left]; [assumption|]. apply IH.
  destruct (p c && negb (memb (h c) new))%bool eqn:E; [|assumption].
  apply andb_prop in E as [_ E]. apply NoDup_snoc; [assumption|].
  intros Hx. apply negb_true_iff in E. apply memb_In in Hx. congruence.
Qed.
Lemma add_new_prefix h p L new : exists r, add_new h p L new = new ++ r.
Proof.
  unfold add_new. revert new. induction L as [|c L IH]; intros new; cbn [fold_left]; [exists []; now rewrite app_nil_r|].
  destruct (p c && _)%bool; [|apply IH]. destruct (IH (new ++ [h c])) as [r ->]. exists (h c :: r). now rewrite <- app_assoc.
Qed.
Definition col_of (M : list (list num)) (cla : nat) (all : list nat) : list num := map (fun i => nth cla (nth i M []) 0%num) all.
Lemma col_of_nth M cla all c : c < length all -> nth c (col_of M cla all) 0%num = nth cla (nth (nth c all 0) M []) 0%num.
Proof.
  intros H. unfold col_of. rewrite (nth_indep _ 0%num ((fun i => nth cla (nth i M []) 0%num) 0)) by now rewrite map_length.
  apply (map_nth (fun i => nth cla (nth i M []) 0%num)).
Qed.
Lemma combine_map {A B} (g : A -> B) l : combine l (map g l) = map (fun c => (c, g c)) l.
Proof. induction l as [|a l IH]; [reflexivity|]. cbn [map combine]. now rewrite IH. Qed.
Lemma fold_left_map {A B C} (f : C -> B -> C) (g : A -> B) l c : fold_left f (map g l) c = fold_left (fun c a => f c (g a)) l c.
Proof. revert c. induction l as [|a l IH]; intros c; [reflexivity|]. cbn [map fold_left]. apply IH. Qed.
Lemma class_step_eq argsort thr M all cla new : is_argsort argsort -> all <> [] ->
  exists mx, (exists i, In i all /\ mx = nth cla (nth i M []) 0%num) /\ (forall i, In i all -> (nth cla (nth i M []) 0 <= mx)%num) /\
  class_step argsort thr M all cla new =
    Some (if qltb 0%num mx then add_new (fun c => nth c all 0) (fun c => qleb thr (nth c (col_of M cla all) 0 / mx)%num)
                              (rev (argsort (col_of M cla all))) new else new).
Proof.
  intros HA Hne. unfold class_step. fold (col_of M cla all). destruct (HA (col_of M cla all)) as [HP _].
  assert (LC : length (col_of M cla all) = length all) by (unfold col_of; apply map_length). rewrite LC in HP.
  set (L := rev (argsort (col_of M cla all))) in *.
  assert (HL : forall c, In c L <-> c < length all).
  { intros c. unfold L. rewrite <- in_rev. split; intros H.
    - apply (Permutation_in _ HP) in H. apply in_seq in H. lia.
    - apply (Permutation_in _ (Permutation_sym HP)). apply in_seq. lia. }
  set (scores := map (fun c => nth c (col_of M cla all) 0%num) L) in *.
  assert (HS : scores <> []).
  { destruct all as [|a all]; [congruence|]. assert (In 0 L) by (apply HL; cbn; lia). unfold scores. destruct L; [contradiction|discriminate]. }
  exists (num_max scores). destruct (num_max_spec scores HS) as [H1 H2]. split; [|split].
  - assert (H3 := H1). unfold scores at 2 in H3. apply in_map_iff in H3 as (c & <- & Hc). apply HL in Hc. exists (nth c all 0). split; [now apply nth_In|].
    now rewrite col_of_nth.
  - intros i Hi. apply (In_nth _ _ 0) in Hi as (c & Hc & <-). rewrite <- col_of_nth by assumption. apply H2. unfold scores.
    apply in_map_iff. exists c. split; [reflexivity|now apply HL].
  - assert (negb (nonempty scores) = false) as -> by (destruct scores; [congruence|reflexivity]).
    destruct (qltb 0%num (num_max scores)); [|reflexivity]. f_equal. unfold scores at 2. rewrite combine_map, fold_left_map. reflexivity.
Qed.

Section pass.
Context (argsort : list num -> list nat) (HA : is_argsort argsort) (thr : num) (M : list (list num)).
Lemma class_step_inv all cla new : all <> [] -> NoDup new -> exists new', class_step argsort thr M all cla new = Some new' /\
  NoDup new' /\ (exists r, new' = new ++ r) /\ (forall x, In x new' -> In x new \/ In x all) /\
  ((thr <= 1)%num -> (exists i, In i all /\ (0 < nth cla (nth i M []) 0)%num) -> exists x, In x new' /\ In x all).
Proof.
  intros Hne Hnd. destruct (class_step_eq argsort thr M all cla new HA Hne) as (mx & (i0 & Hi0 & E0) & Hmx & ->).
  eexists. split; [reflexivity|]. destruct (HA (col_of M cla all)) as [HP _].
  assert (LC : length (col_of M cla all) = length all) by (unfold col_of; apply map_length). rewrite LC in HP.
  assert (HL : forall c, In c (rev (argsort (col_of M cla all))) <-> c < length all).
  { intros c. rewrite <- in_rev. split; intros H.
    - apply (Permutation_in _ HP) in H. apply in_seq in H. lia.
    - apply (Permutation_in _ (Permutation_sym HP)). apply in_seq. lia. }
  destruct (qltb_spec 0%num mx) as [Hp|Hp].
  - split; [now apply add_new_NoDup|split; [apply add_new_prefix|split]].
    + intros x Hx. apply add_new_in in Hx as [H | (c & Hc & _ & <-)]; [now left|right]. apply nth_In. now apply HL.
    + intros Ht _. exists i0. split; [|assumption]. apply add_new_in. right.
      apply (In_nth _ _ 0) in Hi0 as (c & Hc & Ec). exists c. split; [now apply HL|split; [|assumption]].
      rewrite col_of_nth, Ec, <- E0 by assumption. apply qleb_true. replace (mx / mx)%num with 1%num; [assumption|]. field. intros ->. qlra.
  - split; [assumption|split; [exists []; now rewrite app_nil_r|split; [now left|]]].
    intros _ (i & Hi & Hpos). specialize (Hmx i Hi). exfalso. qlra.
Qed.
Lemma class_pass_inv ncla all new : all <> [] -> NoDup new -> exists new', class_pass argsort thr M ncla all new = Some new' /\
  NoDup new' /\ (exists r, new' = new ++ r) /\ (forall x, In x new' -> In x new \/ In x all) /\
  ((thr <= 1)%num -> (exists i cla, cla < ncla /\ In i all /\ (0 < nth cla (nth i M []) 0)%num) -> exists x, In x new' /\ In x all).
Proof.
  intros Hne Hnd. unfold class_pass. induction ncla as [|k IH].
  - cbn. exists new. split; [reflexivity|split; [assumption|split; [exists []; now rewrite app_nil_r|split; [now left|]]]].
    intros _ (? & ? & ? & _). lia.
  - rewrite seq_S, fold_left_app. destruct IH as (n1 & -> & N1 & (r1 & E1) & S1 & P1). cbn [fold_left Nat.add].
    destruct (class_step_inv all k n1 Hne N1) as (n2 & -> & N2 & (r2 & E2) & S2 & P2). exists n2.
    split; [reflexivity|split; [assumption|split; [exists (r1 ++ r2); rewrite E2, E1; now rewrite app_assoc|split]]].
    + intros x Hx. destruct (S2 x Hx) as [H|H]; [now apply S1|now right].
    + intros Ht (i & cla & Hc & Hi & Hpos). destruct (Nat.eq_dec cla k) as [-> | Hn]; [apply P2; [assumption|now exists i]|].
      destruct (P1 Ht) as (x & Hx & Hxa); [exists i, cla; repeat split; [lia|assumption|assumption]|].
      exists x. split; [|assumption]. rewrite E2. apply in_app_iff. now left.
Qed.
Lemma sort_loop_inv ncla nz : NoDup nz -> (thr <= 1)%num ->
  (forall i, In i nz -> exists cla, cla < ncla /\ (0 < nth cla (nth i M []) 0)%num) ->
  forall fuel new, NoDup new -> (forall x, In x new -> In x nz) -> length nz - length new <= fuel ->
  exists r, sort_loop fuel argsort thr M ncla (length nz) (filter (fun i => negb (memb i new)) nz) new = SDone r /\ Permutation r nz /\ exists t, r = new ++ t.
Proof.
  intros Hnz Ht Hpos. induction fuel as [|fuel IH]; intros new Hnd Hsub Hf.
  - cbn [sort_loop]. assert (length new <= length nz) by (apply NoDup_incl_length; [assumption|exact Hsub]).
    destruct (Nat.ltb_spec (length new) (length nz)); [lia|]. exists new. split; [reflexivity|split; [|exists []; now rewrite app_nil_r]].
    apply NoDup_Permutation; [assumption|assumption|]. intros x. split; [apply Hsub|]. apply (NoDup_length_incl Hnd); [lia|exact Hsub].
  - cbn [sort_loop]. destruct (Nat.ltb_spec (length new) (length nz)) as [Hlt|Hge].
    + set (all := filter (fun i => negb (memb i new)) nz).
      assert (Hall : forall i, In i all <-> In i nz /\ ~ In i new).
      { intros i. unfold all. rewrite filter_In, negb_true_iff. rewrite <- not_true_iff_false, memb_In. reflexivity. }
      assert (Hne : all <> []).
      { intros E. assert (length nz <= length new); [|lia]. apply NoDup_incl_length; [assumption|]. intros x Hx.
        destruct (in_dec Nat.eq_dec x new) as [H|H]; [assumption|]. exfalso. assert (In x all) by (apply Hall; now split). now rewrite E in H0. }
      destruct (class_pass_inv ncla all new Hne Hnd) as (new' & -> & N' & (r & Er) & S' & P').
      assert (HG : exists x, In x new' /\ In x all).
      { apply P'; [assumption|]. destruct all as [|i all'] eqn:Ea; [congruence|]. assert (In i nz) by (apply Hall; now left).
        destruct (Hpos i H) as (cla & Hc & Hv). exists i, cla. repeat split; [assumption|now left|assumption]. }
      destruct HG as (x & Hx1 & Hx2).
      assert (Hs : forall y, In y new' -> In y nz) by (intros y Hy; destruct (S' y Hy) as [H|H]; [now apply Hsub|now apply Hall]).
      assert (Hlen : length new < length new').
      { rewrite Er, app_length. destruct r; [|cbn [length]; lia]. rewrite app_nil_r in Er. subst new'. apply Hall in Hx2. tauto. }
      destruct (IH new' N' Hs ltac:(lia)) as (res & Hres & Pres & (t & Et)). exists res. split; [|split; [assumption|exists (r ++ t); rewrite Et, Er; now rewrite app_assoc]].
      rewrite <- Hres. f_equal. unfold all. rewrite filter_filter. apply filter_ext_in. intros i _.
      destruct (memb i new') eqn:E1; cbn [negb andb]; [apply andb_false_r|].
      destruct (memb i new) eqn:E2; [|reflexivity]. exfalso. apply memb_In in E2. assert (In i new') by (rewrite Er; apply in_app_iff; now left).
      apply memb_In in H. congruence.
    + exists new. split; [reflexivity|split; [|exists []; now rewrite app_nil_r]].
      apply NoDup_Permutation; [assumption|assumption|]. intros x. split; [apply Hsub|]. apply (NoDup_length_incl Hnd); [lia|exact Hsub].
Qed.
End pass.

(** the whole function *)
Lemma filter_compl_length {A} (p : A -> bool) l : length (filter p l) + length (filter (fun x => negb (p x)) l) = length l.
Proof. induction l as [|a l IH]; [reflexivity|]. cbn [filter]. destruct (p a); cbn [negb length]; lia. Qed.
Lemma memb_filter_seq (p : nat -> bool) l i : In i l -> memb i (filter p l) = p i.
Proof.
  intros H. apply eq_true_iff_eq. rewrite memb_In, filter_In. tauto.
Qed.
Lemma map_nth_seq {A} (l : list A) d : map (fun i => nth i l d) (seq 0 (length l)) = l.
Proof.
  induction l as [|a l IH]; [reflexivity|]. cbn [length seq map nth]. f_equal. rewrite <- seq_shift, map_map. exact IH.
Qed.
Section whole.
Context (argsort : list num -> list nat) (HA : is_argsort argsort) (cls model : list (list nat)) (M : list (list num)).
Context (Hne : ~ In [] cls)
  (HM : forall i j, i < length cls -> j < length model -> nth j (nth i M []) 0%num = jval (nth i cls []) (nth j model []))
  (HR : forall i, i < length cls -> length (nth i M []) = length model).
Definition zero_rows : list nat := filter (fun i => qeqb (sumL (fun x => x) (nth i M [])) 0%num) (seq 0 (length cls)).
Definition nz_rows : list nat := filter (fun i => negb (memb i zero_rows)) (seq 0 (length cls)).
Lemma nth_ne i : i < length cls -> nth i cls [] <> [].
Proof. intros Hi E. apply Hne. rewrite <- E. now apply nth_In. Qed.
Lemma row_zero_iff i : i < length cls ->
  (sumL (fun x => x) (nth i M []) = 0%num <-> forall j, j < length model -> ~ meets (nth i cls []) (nth j model [])).
Proof.
  intros Hi. assert (NN : forall x, In x (nth i M []) -> (0 <= x)%num).
  { intros x Hx. apply (In_nth _ _ 0%num) in Hx as (j & Hj & <-). rewrite HR in Hj by assumption. rewrite HM by assumption.
    apply jval_nonneg. now apply nth_ne. }
  split.
  - intros E j Hj Hm. pose proof (jval_pos _ _ Hm) as Hp. rewrite <- HM in Hp by assumption.
    assert (In (nth j (nth i M []) 0%num) (nth i M [])) by (apply nth_In; now rewrite HR).
    pose proof (sumL_nonneg_zero (fun x => x) (nth i M []) NN E _ H) as Z. cbv beta in Z. rewrite Z in Hp. qlra.
  - intros H. apply sumL_zero. intros x Hx. apply (In_nth _ _ 0%num) in Hx as (j & Hj & <-). rewrite HR in Hj by assumption.
    rewrite HM by assumption. apply jval_zero. now apply H.
Qed.
Lemma nz_iff i : In i nz_rows <-> i < length cls /\ sumL (fun x => x) (nth i M []) <> 0%num.
Proof.
  unfold nz_rows. rewrite filter_In, in_seq. split; intros [H1 H2].
  - split; [lia|]. unfold zero_rows in H2. rewrite (memb_filter_seq _ (seq 0 (length cls))) in H2 by (apply in_seq; lia).
    apply negb_true_iff in H2. destruct (qeqb_spec (sumL (fun x => x) (nth i M [])) 0%num); [discriminate|assumption].
  - split; [lia|]. unfold zero_rows. rewrite (memb_filter_seq _ (seq 0 (length cls))) by (apply in_seq; lia).
    destruct (qeqb_spec (sumL (fun x => x) (nth i M [])) 0%num); [contradiction|reflexivity].
Qed.
Lemma nz_pos i : In i nz_rows -> exists cla, cla < length model /\ (0 < nth cla (nth i M []) 0)%num.
Proof.
  intros H. apply nz_iff in H as [Hi Hs].
  destruct (existsb (fun j => qltb 0%num (nth j (nth i M []) 0%num)) (seq 0 (length model))) eqn:E.
  - apply existsb_exists in E as (j & Hj & Hp). apply in_seq in Hj. exists j. split; [lia|].
    destruct (qltb_spec 0%num (nth j (nth i M []) 0%num)); [assumption|discriminate].
  - exfalso. apply Hs. apply row_zero_iff; [assumption|]. intros j Hj Hm. apply not_true_iff_false in E. apply E.
    apply existsb_exists. exists j. split; [apply in_seq; lia|]. pose proof (jval_pos _ _ Hm) as Hp. rewrite <- HM in Hp by assumption.
    destruct (qltb_spec 0%num (nth j (nth i M []) 0%num)); [reflexivity|contradiction].
Qed.
Lemma nz_NoDup : NoDup nz_rows.
Proof. apply filter_NoDup, seq_NoDup. Qed.
Lemma nz_target : length cls - length zero_rows = length nz_rows.
Proof.
  pose proof (filter_compl_length (fun i => memb i zero_rows) (seq 0 (length cls))) as H. rewrite seq_length in H.
  assert (E : filter (fun i => memb i zero_rows) (seq 0 (length cls)) = zero_rows).
  { unfold zero_rows at 2. apply filter_ext_in. intros i Hi. unfold zero_rows. now rewrite memb_filter_seq. }
  rewrite E in H. fold nz_rows in H. lia.
Qed.
Lemma nz_zero_perm r : Permutation r nz_rows -> Permutation (map (fun i => nth i cls []) (r ++ zero_rows)) cls.
Proof.
  intros H. apply Permutation_trans with (map (fun i => nth i cls []) (seq 0 (length cls))); [|now rewrite map_nth_seq].
  apply Permutation_map. rewrite H.
  apply NoDup_Permutation.
  - apply NoDup_app_iff. split; [apply nz_NoDup|split; [apply filter_NoDup, seq_NoDup|]].
    intros x H1 H2. unfold nz_rows in H1. apply filter_In in H1 as [_ H1]. apply memb_In in H2. rewrite H2 in H1. discriminate.
  - apply seq_NoDup.
  - intros x. rewrite in_app_iff. unfold nz_rows. rewrite filter_In. destruct (memb x zero_rows) eqn:E; cbn [negb].
    + apply memb_In in E. split; [|tauto]. intros _. unfold zero_rows in E. now apply filter_In in E.
    + split; [intros [[H1 _] | H1]; [assumption|apply memb_In in H1; congruence]|tauto].
Qed.
Lemma filter_nil_memb (l : list nat) : filter (fun i => negb (memb i [])) l = l.
Proof. induction l as [|a l IH]; [reflexivity|]. cbn. f_equal. exact IH. Qed.
End whole.

Lemma sort_clusters_eq fuel argsort cls model thr M : cls <> [] -> similarity cls model = Some M ->
  sort_clusters fuel argsort cls model thr =
  match sort_loop fuel argsort thr M (length model) (length cls - length (zero_rows cls M)) (nz_rows cls M) [] with
  | SDone new => Sorted_to (map (fun i => nth i cls []) (new ++ zero_rows cls M))
  | SRaised => Sort_raised
  | SFuel => Sort_running
  end.
Proof.
  intros Hne HS. unfold sort_clusters. assert (negb (nonempty cls) = false) as -> by (destruct cls; [congruence|reflexivity]). rewrite HS. reflexivity.
Qed.
Theorem sort_clusters_perm argsort cls model thr fuel : is_argsort argsort -> cls <> [] -> ~ In [] cls -> (thr <= 1)%num -> length cls <= fuel ->
  exists r, sort_clusters fuel argsort cls model thr = Sorted_to r /\ Permutation r cls.
Proof.
  intros HA Hne Hno Ht Hf. destruct (similarity_spec cls model Hno) as (M & HS & HL & HM & HR).
  rewrite (sort_clusters_eq _ _ _ _ _ M Hne HS). rewrite nz_target.
  destruct (sort_loop_inv argsort HA thr M (length model) (nz_rows cls M)) with (fuel := fuel) (new := @nil nat) as (r & E & Pr & _).
  - apply nz_NoDup.
  - assumption.
  - exact (nz_pos cls model M Hno HM HR).
  - constructor.
  - intros x [].
  - cbn [length]. pose proof (nz_target cls M). lia.
  - rewrite filter_nil_memb in E. rewrite E. eexists. split; [reflexivity|]. now apply nz_zero_perm.
Qed.
Lemma sort_loop_stuck argsort thr M ncla target all : is_argsort argsort -> all <> [] -> (1 < thr)%num -> 0 < target ->
  forall fuel, sort_loop fuel argsort thr M ncla target all [] = SFuel.
Proof.
  intros HA Hne Ht H0. induction fuel as [|fuel IH]; cbn [sort_loop length].
  - destruct (Nat.ltb_spec 0 target); [reflexivity|lia].
  - destruct (Nat.ltb_spec 0 target); [|lia].
    assert (E : class_pass argsort thr M ncla all [] = Some []).
    { unfold class_pass. clear IH. induction ncla as [|k IHk]; [reflexivity|]. rewrite seq_S, fold_left_app, IHk. cbn [fold_left Nat.add].
      destruct (class_step_eq argsort thr M all k [] HA Hne) as (mx & _ & Hmx & ->). f_equal.
      destruct (qltb_spec 0%num mx) as [Hp|]; [|reflexivity].
      match goal with |- add_new ?h ?p ?L [] = [] => destruct (add_new h p L []) as [|x l] eqn:E; [reflexivity|exfalso] end.
      assert (Hx : In x (x :: l)) by now left. rewrite <- E in Hx. apply add_new_in in Hx as [[] | (c & Hc & Hq & _)].
      destruct (HA (col_of M k all)) as [HP _]. rewrite <- in_rev in Hc. apply (Permutation_in _ HP) in Hc. apply in_seq in Hc.
      unfold col_of in Hc at 1. rewrite map_length in Hc. rewrite col_of_nth in Hq by lia.
      destruct (qleb_spec thr (nth k (nth (nth c all 0%nat) M []) 0 / mx)%num) as [Hle|]; [|discriminate].
      assert (nth k (nth (nth c all 0%nat) M []) 0 <= mx)%num by (apply Hmx, nth_In; lia).
      assert (nth k (nth (nth c all 0%nat) M []) 0 / mx * mx = nth k (nth (nth c all 0%nat) M []) 0)%num by (field; intros ->; qlra).
      set (z := (nth k (nth (nth c all 0%nat) M []) 0 / mx)%num) in *. set (y := nth k (nth (nth c all 0%nat) M []) 0%num) in *.
      assert (0 < (z - 1) * mx)%num by (apply qmult_pos; qlra). assert ((z - 1) * mx = z * mx - mx)%num by ring. qlra. }
    rewrite E. rewrite filter_nil_memb. exact IH.
Qed.
Theorem sort_clusters_stuck argsort cls model thr fuel : is_argsort argsort -> ~ In [] cls -> (1 < thr)%num ->
  (exists c m, In c cls /\ In m model /\ meets c m) -> sort_clusters fuel argsort cls model thr = Sort_running.
Proof.
  intros HA Hno Ht (c & m & Hc & Hm & Hcm). destruct (similarity_spec cls model Hno) as (M & HS & HL & HM & HR).
  rewrite (sort_clusters_eq _ _ _ _ _ M); [|intros ->; contradiction|assumption].
  apply (In_nth _ _ []) in Hc as (i & Hi & <-). apply (In_nth _ _ []) in Hm as (j & Hj & <-).
  assert (Hz : In i (nz_rows cls M)).
  { apply nz_iff. split; [assumption|]. intros E. rewrite (row_zero_iff cls model M Hno HM HR i Hi) in E. now apply (E j Hj). }
  rewrite sort_loop_stuck; try assumption; [reflexivity|intros E; now rewrite E in Hz|].
  rewrite nz_target. destruct (nz_rows cls M); [contradiction|cbn; lia].
Qed.

(** the first cluster is one most similar to the first class *)
Lemma jval_similar a b : jval a b = similar a b.
Proof.
  assert (E : common a b = inter_len a b).
  { unfold common, inter_len. f_equal. apply filter_ext. intros x. apply eq_true_iff_eq. rewrite memb_In.
    destruct (in_dec Nat.eq_dec x b); split; auto; discriminate. }
  unfold similar. now rewrite E.
Qed.
Lemma sort_loop_first argsort thr M ncla target all : is_argsort argsort -> all <> [] -> (thr <= 1)%num -> 0 < target ->
  (exists i, In i all /\ (0 < nth 0 (nth i M []) 0)%num) ->
  forall fuel r, sort_loop fuel argsort thr M (S ncla) target all [] = SDone r ->
  exists i t, r = i :: t /\ In i all /\ forall i', In i' all -> (nth 0 (nth i' M []) 0 <= nth 0 (nth i M []) 0)%num.
Proof.
  intros HA Hne Ht H0 (i0 & Hi0 & Hp0) fuel r. destruct fuel as [|fuel]; cbn [sort_loop length]; destruct (Nat.ltb_spec 0 target) as [_|]; try lia; [discriminate|].
  assert (F : exists i t, class_step argsort thr M all 0 [] = Some (i :: t) /\ In i all /\
     forall i', In i' all -> (nth 0 (nth i' M []) 0 <= nth 0 (nth i M []) 0)%num).
  { destruct (class_step_eq argsort thr M all 0 [] HA Hne) as (mx & (im & Him & Emx) & Hmx & ->).
    pose proof (Hmx i0 Hi0) as Hm0. destruct (qltb_spec 0%num mx) as [Hp|Hp]; [|exfalso; qlra].
    destruct (HA (col_of M 0 all)) as [HP HSo]. assert (LC : length (col_of M 0 all) = length all) by (unfold col_of; apply map_length).
    destruct (rev (argsort (col_of M 0 all))) as [|c0 L] eqn:EL.
    { exfalso. apply (f_equal (@length nat)) in EL. rewrite rev_length, (Permutation_length HP), seq_length, LC in EL. destruct all; [congruence|discriminate]. }
    assert (HLs : forall c, In c (c0 :: L) <-> c < length all).
    { intros c. rewrite <- EL, <- in_rev. rewrite LC in HP. split; intros H.
      - apply (Permutation_in _ HP) in H. apply in_seq in H. lia.
      - apply (Permutation_in _ (Permutation_sym HP)). apply in_seq. lia. }
    assert (Hc0 : c0 < length all) by (apply HLs; now left).
    assert (Hmax : forall c, c < length all -> (nth c (col_of M 0 all) 0 <= nth c0 (col_of M 0 all) 0)%num).
    { intros c Hc. apply HLs in Hc. assert (EA : argsort (col_of M 0 all) = rev L ++ [c0]).
      { rewrite <- (rev_involutive (argsort _)), EL. reflexivity. }
      rewrite EA in HSo. destruct Hc as [<- | Hc]; [qlra|]. clear - HSo Hc. apply in_rev in Hc. induction (rev L) as [|a l IH]; [contradiction|].
      cbn [app] in HSo. apply StronglySorted_inv in HSo as [H1 H2]. destruct Hc as [-> | Hc]; [|now apply IH].
      rewrite Forall_forall in H2. apply H2. apply in_app_iff. right. now left. }
    assert (Emax : nth c0 (col_of M 0 all) 0%num = mx).
    { apply Qcle_antisym; [rewrite col_of_nth by assumption; apply Hmx, nth_In; assumption|].
      apply (In_nth _ _ 0) in Him as (c & Hc & Ec). rewrite Emx, <- Ec, <- col_of_nth by assumption. now apply Hmax. }
    exists (nth c0 all 0). unfold add_new. cbn [fold_left memb negb existsb].
    assert (Hq : qleb thr (nth c0 (col_of M 0 all) 0 / mx)%num = true).
    { apply qleb_true. rewrite Emax. replace (mx / mx)%num with 1%num; [assumption|]. field. intros ->. qlra. }
    rewrite Hq. cbn [andb app].
    match goal with |- context [fold_left ?f L [?x]] => change (fold_left f L [x]) with (add_new (fun c => nth c all 0) (fun c => qleb thr (nth c (col_of M 0 all) 0 / mx)%num) L [x]) end.
    destruct (add_new_prefix (fun c => nth c all 0) (fun c => qleb thr (nth c (col_of M 0 all) 0 / mx)%num) L [nth c0 all 0]) as [t ->].
    exists t. split; [reflexivity|split; [now apply nth_In|]].
    intros i' Hi'. apply (In_nth _ _ 0) in Hi' as (c & Hc & <-). rewrite <- !col_of_nth by assumption. now apply Hmax. }
  destruct F as (i & t & F & Hi & Hbest).
  assert (G : exists t', class_pass argsort thr M (S ncla) all [] = Some (i :: t') /\ NoDup (i :: t')).
  { unfold class_pass. cbn [seq fold_left]. rewrite F.
    assert (NI : NoDup (i :: t)).
    { destruct (class_step_inv argsort HA thr M all 0 [] Hne ltac:(constructor)) as (n' & E' & N' & _). rewrite F in E'. injection E' as <-. assumption. }
    clear F. generalize 1 as a. revert t NI. induction ncla as [|k IH]; intros t NI a; [now exists t|]. cbn [seq fold_left].
    destruct (class_step_inv argsort HA thr M all a (i :: t) Hne NI) as (n' & -> & N' & (r' & E') & _).
    cbn [app] in E'. subst n'. now apply IH. }
  destruct G as (t' & -> & NG). intros Hr.
  assert (PR : forall fuel all' new, NoDup new -> sort_loop fuel argsort thr M (S ncla) target all' new = SDone r -> exists u, r = new ++ u).
  { clear - HA. intros fuel. induction fuel as [|fuel IH]; intros all' new ND; cbn [sort_loop]; destruct (length new <? target).
    - discriminate.
    - intros [= <-]. exists []. now rewrite app_nil_r.
    - destruct (class_pass argsort thr M (S ncla) all' new) as [n'|] eqn:E; [|discriminate]. intros Hr.
      destruct all' as [|a all'].
      + exfalso. clear - HA E. unfold class_pass in E. cbn [seq fold_left] in E. unfold class_step at 2 in E. cbn [map] in E.
        destruct (HA []) as [HP _]. cbn in HP. apply Permutation_sym, Permutation_nil in HP. rewrite HP in E. cbn [rev map nonempty negb] in E.
        revert E. generalize (seq 1 ncla) as l. induction l as [|b l IHl]; cbn [fold_left]; [discriminate|assumption].
      + destruct (class_pass_inv argsort HA thr M (S ncla) (a :: all') new ltac:(discriminate) ND) as (n2 & E2 & N2 & (r2 & Er2) & _).
        rewrite E in E2. injection E2 as <-. destruct (IH _ _ N2 Hr) as [u ->]. exists (r2 ++ u). rewrite Er2. now rewrite app_assoc.
    - intros [= <-]. exists []. now rewrite app_nil_r. }
  destruct (PR _ _ _ NG Hr) as [u ->]. exists i, (t' ++ u). split; [reflexivity|split; assumption].
Qed.
Theorem sort_clusters_first argsort cls m0 model thr fuel r : is_argsort argsort -> ~ In [] cls -> (thr <= 1)%num ->
  (exists c, In c cls /\ meets c m0) -> sort_clusters fuel argsort cls (m0 :: model) thr = Sorted_to r ->
  exists c t, r = c :: t /\ forall c', In c' cls -> (similar c' m0 <= similar c m0)%num.
Proof.
  intros HA Hno Ht (c & Hc & Hcm). destruct (similarity_spec cls (m0 :: model) Hno) as (M & HS & HL & HM & HR).
  rewrite (sort_clusters_eq _ _ _ _ _ M); [|intros ->; contradiction|assumption].
  assert (H0 : forall i, i < length cls -> nth 0 (nth i M []) 0%num = jval (nth i cls []) m0).
  { intros i Hi. rewrite HM by (cbn [length]; lia). reflexivity. }
  apply (In_nth _ _ []) in Hc as (i & Hi & <-).
  assert (Hz : forall k, k < length cls -> meets (nth k cls []) m0 -> In k (nz_rows cls M)).
  { intros k Hk Hkm. apply nz_iff. split; [assumption|]. intros E. rewrite (row_zero_iff cls (m0 :: model) M Hno HM HR k Hk) in E.
    apply (E 0); [cbn [length]; lia|]. exact Hkm. }
  pose proof (Hz i Hi Hcm) as Hzi.
  match goal with |- match ?x with _ => _ end = _ -> _ => destruct x as [new| |] eqn:E end; [|discriminate|discriminate]. intros [= <-].
  cbn [length] in E. apply sort_loop_first in E; try assumption.
  - destruct E as (b & t & -> & Hb & Hbest). apply nz_iff in Hb as Hb'. destruct Hb' as [Hbl _]. cbn [app map]. do 2 eexists. split; [reflexivity|].
    intros c' Hc'. apply (In_nth _ _ []) in Hc' as (k & Hk & <-). rewrite <- !jval_similar.
    rewrite <- !H0 by assumption.
    destruct (qltb_spec 0%num (jval (nth k cls []) m0)) as [Hkp|Hkp].
    + apply Hbest. apply nz_iff. split; [assumption|]. intros E0. rewrite (row_zero_iff cls (m0 :: model) M Hno HM HR k Hk) in E0.
      specialize (E0 0 ltac:(cbn [length]; lia)). cbn [nth] in E0. apply jval_zero in E0. rewrite E0 in Hkp. qlra.
    + rewrite (H0 k Hk), (H0 b Hbl). assert (0 <= jval (nth b cls []) m0)%num by (apply jval_nonneg; now apply nth_ne). qlra.
  - intros E0. now rewrite E0 in Hzi.
  - rewrite nz_target. destruct (nz_rows cls M); [contradiction|cbn; lia].
  - exists i. split; [assumption|]. rewrite H0 by assumption. now apply jval_pos.
Qed.

(** sorting a list of disjoint clusters against a reordering of it *)
Lemma add_new_none h p L new : (forall c, In c L -> p c = false) -> add_new h p L new = new.
Proof.
  unfold add_new. induction L as [|c L IH]; intros H; cbn [fold_left]; [reflexivity|]. rewrite (H c) by now left. cbn [andb].
  apply IH. intros; apply H; now right.
Qed.
Lemma add_new_single h p L new c0 : NoDup L -> In c0 L -> (forall c, In c L -> (p c = true <-> c = c0)) -> ~ In (h c0) new ->
  add_new h p L new = new ++ [h c0].
Proof.
  intros HN Hin Hp Hnew. induction L as [|c L IH]; [contradiction|]. apply NoDup_cons_iff in HN as [Hc HN].
  unfold add_new. cbn [fold_left].
  destruct (Nat.eq_dec c c0) as [-> | Hne].
  - assert (p c0 = true) as -> by (apply Hp; [now left|reflexivity]).
    assert (memb (h c0) new = false) as -> by (apply not_true_iff_false; now rewrite memb_In). cbn [andb negb].
    apply add_new_none. intros c H. apply not_true_iff_false. intros E. apply Hp in E; [subst c; contradiction|now right].
  - destruct (p c) eqn:E; [apply Hp in E; [contradiction|now left]|]. cbn [andb].
    apply IH; [assumption|destruct Hin; [contradiction|assumption]|]. intros d Hd. apply Hp. now right.
Qed.
Lemma jval_self a : a <> [] -> jval a a = 1%num.
Proof.
  intros H. unfold jval. assert (E : inter_len a a = length a).
  { unfold inter_len. f_equal. assert (G : forall l, incl l a -> filter (fun x => memb x a) l = l).
    { induction l as [|x l IH]; intros Hl; [reflexivity|]. cbn [filter]. assert (memb x a = true) as -> by (apply memb_In, Hl; now left).
      f_equal. apply IH. intros y Hy. apply Hl. now right. }
    apply G, incl_refl. }
  rewrite E. replace (length a + length a - length a) with (length a) by lia. field.
  intros E0. rewrite <- qn_0 in E0. apply qn_inj in E0. destruct a; [congruence|discriminate].
Qed.
Lemma disjoint_eq (P : list (list nat)) a b : NoDup (concat P) -> In a P -> In b P -> meets a b -> a = b.
Proof.
  intros HN Ha Hb (x & Hxa & Hxb). induction P as [|c P IH]; [contradiction|]. cbn [concat] in HN. apply NoDup_app_iff in HN as (H1 & H2 & H3).
  destruct Ha as [<- | Ha], Hb as [<- | Hb]; [reflexivity| | |now apply IH].
  - exfalso. apply (H3 x); [assumption|]. apply in_concat. now exists b.
  - exfalso. apply (H3 x); [assumption|]. apply in_concat. now exists a.
Qed.
Lemma NoDup_of_concat (P : list (list nat)) : NoDup (concat P) -> ~ In [] P -> NoDup P.
Proof.
  induction P as [|c P IH]; intros HN Hne; [constructor|]. cbn [concat] in HN. apply NoDup_app_iff in HN as (H1 & H2 & H3).
  constructor; [|apply IH; [assumption|intros H; apply Hne; now right]].
  intros Hc. destruct c as [|x c]; [apply Hne; now left|]. apply (H3 x); [now left|]. apply in_concat. exists (x :: c). split; [assumption|now left].
Qed.
Lemma firstn_S_nth {A} (l : list A) k d : k < length l -> firstn (S k) l = firstn k l ++ [nth k l d].
Proof.
  revert k. induction l as [|a l IH]; intros k Hk; cbn [length] in Hk; [lia|]. destruct k as [|k]; [reflexivity|].
  cbn [nth]. change (firstn (S (S k)) (a :: l)) with (a :: firstn (S k) l). change (firstn (S k) (a :: l)) with (a :: firstn k l).
  cbn [app]. f_equal. apply IH. lia.
Qed.
Lemma firstn_notin {A} (l : list A) k d : NoDup l -> k < length l -> ~ In (nth k l d) (firstn k l).
Proof.
  intros HN Hk H. apply (In_nth _ _ d) in H as (j & Hj & E). rewrite firstn_length in Hj.
  assert (nth j l d = nth k l d) as E2.
  { rewrite <- E. rewrite <- (firstn_skipn k l) at 1. rewrite app_nth1; [reflexivity|]. rewrite firstn_length. lia. }
  apply (NoDup_nth l d) in E2; [lia|assumption|lia|assumption].
Qed.
Lemma qdiv_1 x : (x / 1 = x)%num.
Proof. unfold Qcdiv. replace (/ 1)%num with 1%num by reflexivity. ring. Qed.
Theorem sort_clusters_restore argsort P Q thr fuel : is_argsort argsort -> NoDup (concat P) -> ~ In [] P -> P <> [] -> Permutation Q P ->
  (0 < thr)%num -> (thr <= 1)%num -> 1 <= fuel -> sort_clusters fuel argsort Q P thr = Sorted_to P.
Proof.
  intros HA HN Hno Hne HP Ht0 Ht1 Hf.
  assert (HnoQ : ~ In [] Q) by (intros H; apply Hno; now apply (Permutation_in _ HP)).
  assert (HNP : NoDup P) by now apply NoDup_of_concat. assert (HNQ : NoDup Q) by now apply (Permutation_NoDup (Permutation_sym HP)).
  assert (LQ : length Q = length P) by now apply Permutation_length.
  assert (HneQ : Q <> []) by (intros ->; apply Hne; now apply Permutation_nil).
  destruct (similarity_spec Q P HnoQ) as (M & HS & _ & HM & HR). rewrite (sort_clusters_eq _ _ _ _ _ M HneQ HS).
  assert (HQP : forall i, i < length Q -> In (nth i Q []) P) by (intros i Hi; apply (Permutation_in _ HP); now apply nth_In).
  assert (V : forall i j, i < length Q -> j < length P ->
     (nth i Q [] = nth j P [] -> nth j (nth i M []) 0%num = 1%num) /\ (nth i Q [] <> nth j P [] -> nth j (nth i M []) 0%num = 0%num)).
  { intros i j Hi Hj. rewrite HM by assumption. split; intros E.
    - rewrite E. apply jval_self. intros E0. apply Hno. rewrite <- E0. now apply nth_In.
    - apply jval_zero. intros Hm. apply E. apply (disjoint_eq P); [assumption|now apply HQP|now apply nth_In|assumption]. }
  assert (Hnz : nz_rows Q M = seq 0 (length Q)).
  { assert (Z : zero_rows Q M = []).
    { destruct (zero_rows Q M) as [|i z] eqn:E; [reflexivity|exfalso]. assert (Hi : In i (zero_rows Q M)) by (rewrite E; now left).
      unfold zero_rows in Hi. apply filter_In in Hi as [Hi Hz]. apply in_seq in Hi.
      destruct (qeqb_spec (sumL (fun x => x) (nth i M [])) 0%num) as [Hs|]; [|discriminate].
      rewrite (row_zero_iff Q P M HnoQ HM HR i) in Hs by lia.
      assert (Hin : In (nth i Q []) P) by (apply HQP; lia). apply (In_nth _ _ []) in Hin as (j & Hj & Ej). apply (Hs j Hj). rewrite Ej.
      destruct (nth i Q []) as [|x c] eqn:Ec; [exfalso; apply HnoQ; rewrite <- Ec; apply nth_In; lia|]. exists x. split; now left. }
    unfold nz_rows. rewrite Z. apply filter_nil_memb. }
  rewrite nz_target, Hnz, seq_length.
  assert (Hz : zero_rows Q M = []).
  { pose proof (nz_target Q M) as E. rewrite Hnz, seq_length in E. assert (length Q <> 0) by (destruct Q; [congruence|discriminate]).
    destruct (zero_rows Q M); [reflexivity|cbn [length] in E; lia]. }
  rewrite Hz. set (n := length Q) in *.
  assert (Hall : seq 0 n <> []) by (assert (n <> 0) by (unfold n; destruct Q; [congruence|discriminate]); destruct n; [lia|discriminate]).
  assert (PASS : forall k, k <= n -> exists new, class_pass argsort thr M k (seq 0 n) [] = Some new /\ NoDup new /\ map (fun i => nth i Q []) new = firstn k P).
  { induction k as [|k IH]; intros Hk; [exists []; cbn; repeat split; constructor|].
    destruct (IH ltac:(lia)) as (new & E & ND & EM). unfold class_pass in *. rewrite seq_S, fold_left_app, E. cbn [fold_left Nat.add].
    destruct (class_step_eq argsort thr M (seq 0 n) k new HA Hall) as (mx & (im & Him & Emx) & Hmx & ->).
    assert (Hin : In (nth k P []) Q) by (apply (Permutation_in _ (Permutation_sym HP)), nth_In; lia).
    apply (In_nth _ _ []) in Hin as (c0 & Hc0 & Ec0). fold n in Hc0.
    assert (mx = 1%num).
    { pose proof (Hmx c0 ltac:(apply in_seq; lia)) as H1. rewrite (proj1 (V c0 k ltac:(lia) ltac:(lia)) Ec0) in H1.
      apply in_seq in Him. destruct (list_eq_dec Nat.eq_dec (nth im Q []) (nth k P [])) as [E1|E1].
      - rewrite Emx. apply V; [lia|lia|assumption].
      - apply (proj2 (V im k ltac:(lia) ltac:(lia))) in E1. rewrite Emx, E1 in H1. exfalso. qlra. }
    subst mx. rewrite H in *. destruct (qltb_spec 0%num 1%num) as [_|Hbad]; [|exfalso; apply Hbad; reflexivity].
    rewrite (add_new_single _ _ _ _ c0).
    - rewrite seq_nth by assumption. cbn [Nat.add]. exists (new ++ [c0]). split; [reflexivity|]. split.
      + apply NoDup_snoc; [assumption|]. intros Hc. apply (in_map (fun i => nth i Q [])) in Hc. rewrite EM, Ec0 in Hc.
        now apply firstn_notin in Hc; [|assumption|lia].
      + rewrite map_app, EM. cbn [map]. rewrite Ec0. symmetry. apply firstn_S_nth. lia.
    - destruct (HA (col_of M k (seq 0 n))) as [HP' _]. apply (Permutation_NoDup (l := argsort (col_of M k (seq 0 n)))); [apply Permutation_rev|].
      apply (Permutation_NoDup (Permutation_sym HP')), seq_NoDup.
    - rewrite <- in_rev. destruct (HA (col_of M k (seq 0 n))) as [HP' _]. apply (Permutation_in _ (Permutation_sym HP')).
      unfold col_of. rewrite map_length, seq_length. apply in_seq. lia.
    - intros c Hc. rewrite <- in_rev in Hc. destruct (HA (col_of M k (seq 0 n))) as [HP' _]. apply (Permutation_in _ HP') in Hc.
      unfold col_of in Hc. rewrite map_length, seq_length in Hc. apply in_seq in Hc.
      rewrite col_of_nth by (rewrite seq_length; lia). rewrite seq_nth by lia. cbn [Nat.add].
      destruct (list_eq_dec Nat.eq_dec (nth c Q []) (nth k P [])) as [E1|E1].
      + rewrite (proj1 (V c k ltac:(lia) ltac:(lia)) E1). split; [|intros _; apply qleb_true; rewrite qdiv_1; assumption].
        intros _. rewrite <- Ec0 in E1. apply (NoDup_nth Q []) in E1; [assumption|assumption|fold n; lia|fold n; lia].
      + rewrite (proj2 (V c k ltac:(lia) ltac:(lia)) E1). split.
        * destruct (qleb_spec thr (0 / 1)%num) as [Hle|]; [|discriminate]. rewrite qdiv_1 in Hle. exfalso. qlra.
        * intros ->. congruence.
    - rewrite seq_nth by assumption. cbn [Nat.add]. intros Hc. apply (in_map (fun i => nth i Q [])) in Hc. rewrite EM, Ec0 in Hc.
      now apply firstn_notin in Hc; [|assumption|lia]. }
  destruct (PASS n (le_n n)) as (new & E & ND & EM). rewrite LQ, firstn_all in EM.
  assert (Ln : length new = n) by (apply (f_equal (@length _)) in EM; rewrite map_length in EM; lia).
  destruct fuel as [|fuel]; [lia|]. cbn [sort_loop length].
  destruct (Nat.ltb_spec 0 n) as [_|]; [|exfalso; apply Hall; replace n with 0 by lia; reflexivity].
  rewrite <- LQ. rewrite E. destruct fuel; cbn [sort_loop]; rewrite Ln, Nat.ltb_irrefl, app_nil_r, EM; reflexivity.
Qed.

(** * jaccard_distance *)
Definition ordp (p : nat * nat) : nat * nat := if fst p <? snd p then p else (snd p, fst p).
Lemma pairs_count l (p : nat * nat -> bool) : NoDup l -> (forall x y, p (x, y) = p (y, x)) ->
  exists L, NoDup L /\ length L = length (filter p (pairs_of l)) /\
            forall x y, In (x, y) L <-> x < y /\ In x l /\ In y l /\ p (x, y) = true.
Proof.
  intros HN Hs. induction l as [|a l IH].
  - exists []. split; [constructor|split; [reflexivity|]]. intros x y. cbn. tauto.
  - apply NoDup_cons_iff in HN as [Ha HN]. destruct (IH HN) as (L & NL & LL & HL). clear IH.
    cbn [pairs_of]. rewrite filter_app, app_length, <- LL.
    set (F := map (fun b => ordp (a, b)) (filter (fun b => p (a, b)) l)).
    assert (LF : length (filter p (map (fun b => (a, b)) l)) = length F).
    { unfold F. rewrite map_length. clear. induction l as [|b l IH]; [reflexivity|]. cbn [map filter]. destruct (p (a, b)); cbn [length]; now rewrite IH. }
    exists (F ++ L). split; [|split; [now rewrite app_length, LF|]].
    + apply NoDup_app_iff. split; [|split; [assumption|]].
      * unfold F. assert (K : forall l', NoDup l' -> ~ In a l' -> NoDup (map (fun b => ordp (a, b)) l')).
        { induction l' as [|b l' IH]; intros H1 H2; [constructor|]. apply NoDup_cons_iff in H1 as [H1 H3]. cbn [map]. constructor.
          - intros H. apply in_map_iff in H as (c & E & Hc). apply H1. unfold ordp in E. cbn [fst snd] in E.
            destruct (Nat.ltb_spec a c), (Nat.ltb_spec a b); injection E; intros; subst; try assumption; try lia.
          - apply IH; [assumption|]. intros H. apply H2. now right. }
        apply K; [now apply filter_NoDup|]. rewrite filter_In. tauto.
      * intros [x y] H1 H2. apply HL in H2 as (_ & Hx & Hy & _). unfold F in H1. apply in_map_iff in H1 as (b & E & _).
        unfold ordp in E. cbn [fst snd] in E. destruct (a <? b); injection E; intros; subst; contradiction.
    + intros x y. rewrite in_app_iff, HL. unfold F. rewrite in_map_iff. cbn [In]. split.
      * intros [(b & E & Hb) | (H1 & H2 & H3 & H4)]; [|repeat split; try assumption; now right].
        apply filter_In in Hb as [Hb Hp]. unfold ordp in E. cbn [fst snd] in E.
        destruct (Nat.ltb_spec a b) as [Hlt|Hlt]; injection E; intros; subst.
        -- repeat split; [assumption|now left|now right|assumption].
        -- assert (x <> y) by (intros ->; contradiction). repeat split; [lia|now right|now left|now rewrite Hs].
      * intros (Hlt & [<- | Hx] & [<- | Hy] & Hp); [lia| | |right; tauto]; left.
        -- exists y. split; [unfold ordp; cbn [fst snd]; destruct (Nat.ltb_spec a y); [reflexivity|lia]|]. apply filter_In. now split.
        -- exists x. split; [unfold ordp; cbn [fst snd]; destruct (Nat.ltb_spec a x); [lia|reflexivity]|]. apply filter_In. split; [assumption|]. now rewrite Hs.
Qed.
Definition eqv (d : dict) (p : nat * nat) : bool :=
  match dget d (fst p), dget d (snd p) with Some a, Some b => a =? b | _, _ => false end.
Lemma jaccard_loop_spec c1 c2 ps : forall s d,
  (forall p, In p ps -> (dget c1 (fst p) <> None /\ dget c1 (snd p) <> None) /\ dget c2 (fst p) <> None /\ dget c2 (snd p) <> None) ->
  jaccard_loop c1 c2 ps s d = Some (s + length (filter (fun p => eqv c1 p && eqv c2 p)%bool ps), d + length (filter (fun p => xorb (eqv c1 p) (eqv c2 p)) ps)).
Proof.
  induction ps as [|[x y] ps IH]; intros s d H; cbn [jaccard_loop filter length]; [now rewrite !Nat.add_0_r|].
  destruct (H (x, y) (or_introl eq_refl)) as [[H1 H2] [H3 H4]]. cbn [fst snd] in *.
  destruct (dget c1 x) as [a1|] eqn:E1; [|congruence]. destruct (dget c1 y) as [a2|] eqn:E2; [|congruence].
  destruct (dget c2 x) as [b1|] eqn:E3; [|congruence]. destruct (dget c2 y) as [b2|] eqn:E4; [|congruence].
  assert (eqv c1 (x, y) = (a1 =? a2)) as -> by (unfold eqv; cbn [fst snd]; now rewrite E1, E2).
  assert (eqv c2 (x, y) = (b1 =? b2)) as -> by (unfold eqv; cbn [fst snd]; now rewrite E3, E4).
  rewrite IH by (intros p Hp; apply H; now right).
  destruct (a1 =? a2), (b1 =? b2); cbn [andb negb xorb length]; f_equal; f_equal; lia.
Qed.
Lemma eqv_sym d x y : eqv d (x, y) = eqv d (y, x).
Proof. unfold eqv. cbn [fst snd]. destruct (dget d x), (dget d y); try reflexivity. apply Nat.eqb_sym. Qed.
Lemma to_dict_spec V a : not_partition a -> arg_covers V a -> exists d, to_dict a = Some d /\ NoDup (map fst d) /\
  (forall x, In x (map fst d) <-> In x V) /\ (forall x y, eqv d (x, y) = true <-> arg_joined a x y).
Proof.
  intros Hp Hc. assert (EQ : forall d x y, eqv d (x, y) = true <-> exists i, dget d x = Some i /\ dget d y = Some i).
  { intros d x y. unfold eqv. cbn [fst snd]. destruct (dget d x) as [i|], (dget d y) as [j|].
    - rewrite Nat.eqb_eq. split; [intros ->; now exists j|]. intros (k & [= ->] & [= ->]). reflexivity.
    - split; [discriminate|]. intros (k & _ & [=]).
    - split; [discriminate|]. intros (k & [=] & _).
    - split; [discriminate|]. intros (k & [=] & _). }
  destruct a as [cl|d|p]; [| |contradiction]; cbn [to_dict].
  - destruct Hc as [HV HP]. exists (build_dict cl). split; [reflexivity|].
    assert (HN : NoDup (concat cl)) by now apply (Permutation_NoDup (Permutation_sym HP)).
    assert (HM : dict_matches cl (build_dict cl)).
    { apply build_dict_matches. clear - HN. induction cl as [|c cl IH]; intros a b x Ha Hb; [destruct (in_cluster_nil _ _ Ha)|].
      cbn [concat] in HN. apply NoDup_app_iff in HN as (H1 & H2 & H3).
      assert (C : forall k, in_cluster cl k x -> In x (concat cl)).
      { intros k Hk. apply in_cluster_concat. now exists k. }
      destruct a as [|a], b as [|b]; [reflexivity| | |].
      - exfalso. apply in_cluster_0 in Ha. apply (H3 x Ha). apply (C b). exact Hb.
      - exfalso. apply in_cluster_0 in Hb. apply (H3 x Hb). apply (C a). exact Ha.
      - f_equal. now apply (IH H2 a b x). }
    split; [apply build_dict_NoDup|split].
    + intros x. change (map fst (build_dict cl)) with (keys (build_dict cl)). rewrite dget_some_key. split.
      * intros [i Hi]. apply HM in Hi. apply (Permutation_in _ HP). apply in_cluster_concat. now exists i.
      * intros Hx. apply (Permutation_in _ (Permutation_sym HP)) in Hx. apply in_cluster_concat in Hx as [i Hi]. exists i. now apply HM.
    + intros x y. rewrite EQ. cbn [arg_joined]. unfold joined. split.
      * intros (i & Hx & Hy). apply HM in Hx, Hy. apply in_cluster_nth in Hx as [Hi Hx]. apply in_cluster_nth in Hy as [_ Hy].
        exists (nth i cl []). split; [now apply nth_In|now split].
      * intros (c & Hc & Hx & Hy). apply (In_nth _ _ []) in Hc as (i & Hi & <-). exists i. split; apply HM; apply in_cluster_nth; now split.
  - destruct Hc as [HV HP]. exists d. split; [reflexivity|]. split; [now apply (Permutation_NoDup (Permutation_sym HP))|split].
    + intros x. split; intros H; [now apply (Permutation_in _ HP)|now apply (Permutation_in _ (Permutation_sym HP))].
    + intros x y. apply EQ.
Qed.
Theorem jaccard_spec V a1 a2 : not_partition a1 -> not_partition a2 -> arg_covers V a1 -> arg_covers V a2 ->
  exists d1 d2 s d, to_dict a1 = Some d1 /\ to_dict a2 = Some d2 /\ jaccard_counts d1 d2 = Some (s, d) /\
    pair_count (fun x y => arg_joined a1 x y /\ arg_joined a2 x y) s /\
    pair_count (fun x y => (arg_joined a1 x y /\ ~ arg_joined a2 x y) \/ (~ arg_joined a1 x y /\ arg_joined a2 x y)) d.
Proof.
  intros P1 P2 C1 C2. destruct (to_dict_spec V a1 P1 C1) as (d1 & E1 & N1 & K1 & J1). destruct (to_dict_spec V a2 P2 C2) as (d2 & E2 & N2 & K2 & J2).
  exists d1, d2. do 2 eexists. split; [assumption|split; [assumption|split]].
  - unfold jaccard_counts. apply jaccard_loop_spec. intros p Hp.
    assert (HI : In (fst p) (map fst d1) /\ In (snd p) (map fst d1)).
    { clear - Hp. induction (map fst d1) as [|a l IH]; [contradiction|]. cbn [pairs_of] in Hp. apply in_app_iff in Hp as [Hp|Hp].
      - apply in_map_iff in Hp as (b & <- & Hb). cbn. auto.
      - destruct (IH Hp). cbn. auto. }
    assert (G : forall dd, (forall x, In x (map fst dd) <-> In x V) -> forall x, In x (map fst d1) -> dget dd x <> None).
    { intros dd K x Hx. apply K1 in Hx. apply K in Hx. change (map fst dd) with (keys dd) in Hx. rewrite dget_some_key in Hx. destruct Hx as [i ->]. discriminate. }
    destruct HI. repeat split; apply G; assumption.
  - assert (CNT : forall q R, (forall x y, q (x, y) = q (y, x)) -> (forall x y, In x V -> In y V -> (q (x, y) = true <-> R x y)) ->
      (forall x y, R x y -> In x V /\ In y V) -> pair_count R (0 + length (filter q (pairs_of (map fst d1))))).
    { intros q R Hs Hq HR. destruct (pairs_count (map fst d1) q N1 Hs) as (L & NL & LL & HL). exists L. split; [assumption|split; [now rewrite LL|]].
      intros x y. rewrite HL, !K1. split; [intros (A & B & C & D); split; [assumption|now apply Hq]|].
      intros (A & B). destruct (HR x y B) as [Hx Hy]. repeat split; try assumption. now apply Hq. }
    assert (IN : forall dd a, (forall x, In x (map fst dd) <-> In x V) -> (forall x y, eqv dd (x, y) = true <-> arg_joined a x y) ->
       forall x y, arg_joined a x y -> In x V /\ In y V).
    { intros dd a K J x y H. apply J in H. unfold eqv in H. cbn [fst snd] in H. destruct (dget dd x) as [i|] eqn:Ex; [|discriminate].
      destruct (dget dd y) as [j|] eqn:Ey; [|discriminate]. split; apply K.
      - change (In x (keys dd)). apply dget_some_key. now exists i.
      - change (In y (keys dd)). apply dget_some_key. now exists j. }
    pose proof (IN d1 a1 K1 J1) as I1. pose proof (IN d2 a2 K2 J2) as I2. split; apply CNT.
    + intros x y. now rewrite (eqv_sym d1), (eqv_sym d2).
    + intros x y _ _. rewrite andb_true_iff, J1, J2. reflexivity.
    + intros x y [H _]. now apply I1.
    + intros x y. now rewrite (eqv_sym d1), (eqv_sym d2).
    + intros x y _ _. rewrite <- J1, <- J2. destruct (eqv d1 (x, y)), (eqv d2 (x, y)); cbn [xorb]; intuition congruence.
    + intros x y [[H _] | [_ H]]; [now apply I1|now apply I2].
Qed.
