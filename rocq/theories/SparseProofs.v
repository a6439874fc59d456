From Verif Require Import Base SparseModel SparseSpec.

(** * Lists and sorted index sets *)
Fixpoint pos (x : nat) (l : list nat) : option nat :=
  match l with
  | [] => None
  | y :: r => if x =? y then Some 0 else option_map S (pos x r)
  end.
Lemma pos_Some x l k : pos x l = Some k -> nth_error l k = Some x.
Proof.
  revert k. induction l as [|y l IH]; intros k; simpl; [discriminate|].
  destruct (Nat.eqb_spec x y); [intros H; injection H as <-; subst; reflexivity|].
  destruct (pos x l); [|discriminate]. intros H. injection H as <-. apply IH. reflexivity.
Qed.
Lemma pos_lt x l k : pos x l = Some k -> k < length l.
Proof. intros H. apply pos_Some in H. apply nth_error_Some. congruence. Qed.
Lemma pos_nth x l k d : pos x l = Some k -> nth k l d = x.
Proof. intros H. apply nth_error_nth. now apply pos_Some. Qed.
Lemma pos_In x l : In x l <-> exists k, pos x l = Some k.
Proof.
  induction l as [|y l IH]; simpl; [split; [intros []|intros [k H]; discriminate]|].
  destruct (Nat.eqb_spec x y) as [->|Hn].
  - split; [eauto|auto].
  - split.
    + intros [H|H]; [congruence|]. apply IH in H. destruct H as [k ->]. eexists. reflexivity.
    + intros [k H]. destruct (pos x l); [|discriminate]. right. apply IH. eauto.
Qed.
Lemma pos_None x l : pos x l = None <-> ~ In x l.
Proof.
  rewrite pos_In. split.
  - intros H [k Hk]. congruence.
  - intros H. destruct (pos x l) eqn:E; [exfalso; eauto|reflexivity].
Qed.
Lemma sorted_NoDup l : StronglySorted lt l -> NoDup l.
Proof.
  induction 1 as [|a l Hs IH Hf]; constructor; [|exact IH].
  rewrite Forall_forall in Hf. intros H. specialize (Hf a H). lia.
Qed.
Lemma pos_nth_error x l k : NoDup l -> nth_error l k = Some x -> pos x l = Some k.
Proof.
  intros Hn H. destruct (pos x l) as [k'|] eqn:E.
  - f_equal. apply pos_Some in E. assert (Hk : k' < length l) by (apply nth_error_Some; congruence).
    apply (proj1 (NoDup_nth_error l) Hn); [exact Hk|congruence].
  - exfalso. apply pos_None in E. apply E. now apply nth_error_In in H.
Qed.
Lemma pos_of_nth l k : NoDup l -> k < length l -> pos (nth k l 0) l = Some k.
Proof. intros Hn Hk. apply pos_nth_error; [exact Hn|]. now apply nth_error_nth'. Qed.
Lemma memb_pos x l : memb x l = match pos x l with Some _ => true | None => false end.
Proof.
  destruct (pos x l) eqn:E.
  - apply memb_In, pos_In. eauto.
  - apply memb_false. now apply pos_None.
Qed.

Lemma ins_In x y l : In y (ins x l) <-> y = x \/ In y l.
Proof.
  induction l as [|a l IH]; simpl; [intuition|].
  destruct (x <? a); [simpl; intuition|].
  destruct (Nat.eqb_spec x a); [subst; simpl; intuition|]. simpl. rewrite IH. intuition.
Qed.
Lemma ins_sorted x l : StronglySorted lt l -> StronglySorted lt (ins x l).
Proof.
  induction 1 as [|a l Hs IH Hf]; simpl; [repeat constructor|].
  destruct (Nat.ltb_spec x a).
  - constructor; [now constructor|]. constructor; [exact H|].
    rewrite Forall_forall in *. intros y Hy. specialize (Hf y Hy). lia.
  - destruct (Nat.eqb_spec x a); [now constructor|]. constructor; [exact IH|].
    rewrite Forall_forall in *. intros y Hy. apply ins_In in Hy. destruct Hy as [->|Hy]; [lia|auto].
Qed.
Lemma unique_In x l : In x (unique l) <-> In x l.
Proof. induction l as [|a l IH]; simpl; [tauto|]. rewrite ins_In, IH. intuition. Qed.
Lemma unique_sorted l : StronglySorted lt (unique l).
Proof. induction l as [|a l IH]; simpl; [constructor|]. now apply ins_sorted. Qed.
Lemma unique_id l : StronglySorted lt l -> unique l = l.
Proof.
  induction 1 as [|a l Hs IH Hf]; simpl; [reflexivity|]. rewrite IH.
  destruct l as [|b l]; [reflexivity|]. simpl. inversion Hf; subst.
  destruct (Nat.ltb_spec a b); [reflexivity|lia].
Qed.

(** * CSR arrays built row by row *)
Lemma ptrs_length rows : forall s, length (ptrs s rows) = S (length rows).
Proof. induction rows as [|r t IH]; intros s; simpl; [reflexivity|]. now rewrite IH. Qed.
Lemma ptrs_nth rows : forall s i, i <= length rows ->
  nth i (ptrs s rows) 0 = s + length (concat (firstn i rows)).
Proof.
  induction rows as [|r t IH]; intros s i Hi; simpl in *.
  - replace i with 0 by lia. simpl. lia.
  - destruct i as [|i]; [simpl; lia|]. simpl. rewrite IH by lia. rewrite app_length. lia.
Qed.
Lemma concat_firstn_S {A} (rows : list (list A)) i d : i < length rows ->
  concat (firstn (S i) rows) = concat (firstn i rows) ++ nth i rows d.
Proof.
  revert i. induction rows as [|r t IH]; intros i Hi; simpl in *; [lia|].
  destruct i as [|i]; [simpl; now rewrite app_nil_r|].
  simpl. rewrite <- app_assoc. f_equal. apply IH. lia.
Qed.
Lemma concat_split_at {A} (rows : list (list A)) i d : i < length rows ->
  concat rows = concat (firstn i rows) ++ nth i rows d ++ concat (skipn (S i) rows).
Proof.
  revert i. induction rows as [|r t IH]; intros i Hi; simpl in *; [lia|].
  destruct i as [|i]; [reflexivity|]. cbn [firstn concat nth]. rewrite <- app_assoc. f_equal. apply IH. lia.
Qed.
Lemma seq_add a n : seq a n = map (fun k => a + k) (seq 0 n).
Proof. induction n as [|n IH]; [reflexivity|]. rewrite !seq_S, map_app, IH. reflexivity. Qed.
Lemma map_nth_seq_app {A B} (f : A -> B) (a b c : list A) (d : A) :
  map (fun k => f (nth k (a ++ b ++ c) d)) (seq (length a) (length b)) = map f b.
Proof.
  rewrite <- (map_nth_seq b d) at 2. rewrite map_map.
  replace (seq (length a) (length b)) with (map (fun k => length a + k) (seq 0 (length b))).
  - rewrite map_map. apply map_ext_in. intros k Hk. apply seq_In_iff in Hk.
    rewrite app_nth2 by lia. rewrite app_nth1 by lia. f_equal. f_equal. lia.
  - symmetry. apply seq_add.
Qed.
Lemma nth_map_dep {A B} (f : A -> B) l k d d' : k < length l -> nth k (map f l) d' = f (nth k l d).
Proof. intros H. rewrite (nth_indep _ d' (f d)) by now rewrite map_length. apply map_nth. Qed.
Lemma row_entries_of_rows rows i : i < length rows -> row_entries (of_rows rows) i = nth i rows [].
Proof.
  intros Hi. unfold row_entries, row_range, of_rows. cbn [c_idx c_data c_ptr].
  rewrite !ptrs_nth by lia. rewrite !Nat.add_0_l.
  rewrite (concat_firstn_S rows i []) by exact Hi. rewrite app_length.
  replace (_ + length (nth i rows []) - _) with (length (nth i rows [])) by lia.
  set (a := concat (firstn i rows)). set (b := nth i rows []). set (c := concat (skipn (S i) rows)).
  rewrite (concat_split_at rows i [] Hi). fold a b c.
  transitivity (map (fun k => nth k (a ++ b ++ c) (0, 0%num)) (seq (length a) (length b))).
  - apply map_ext_in. intros k Hk. apply in_seq in Hk.
    rewrite !(nth_map_dep _ _ _ (0, 0%num)) by (rewrite !app_length; lia).
    destruct (nth k (a ++ b ++ c) (0, 0%num)). reflexivity.
  - rewrite (map_nth_seq_app (fun x => x) a b c). apply map_id.
Qed.
Lemma csr_ok_of_rows n rows : length rows = n ->
  (forall r e, In r rows -> In e r -> fst e < n) -> csr_ok n (of_rows rows).
Proof.
  intros Hl Hr. unfold csr_ok, of_rows. cbn [c_idx c_data c_ptr].
  split; [rewrite ptrs_length; lia|]. split; [destruct rows; reflexivity|].
  split.
  { intros i Hi. rewrite !ptrs_nth by lia. rewrite !Nat.add_0_l. rewrite (concat_firstn_S rows i []) by lia.
    rewrite app_length. lia. }
  split; [rewrite ptrs_nth by lia; rewrite <- Hl, firstn_all, map_length; reflexivity|].
  split; [now rewrite !map_length|].
  intros j Hj. apply in_map_iff in Hj. destruct Hj as (e & <- & He). apply in_concat in He.
  destruct He as (r & Hr1 & Hr2). eauto.
Qed.
Lemma row_entries_col n M i e : csr_ok n M -> i < n -> In e (row_entries M i) -> fst e < n.
Proof.
  intros (Hl & H0 & Hmono & Hn & Hidx & Hb) Hi He. unfold row_entries, row_range in He.
  apply in_map_iff in He. destruct He as (k & <- & Hk). apply in_seq in Hk. cbn [fst].
  apply Hb. apply nth_In. rewrite Hidx, <- Hn.
  assert (Hle : nth (S i) (c_ptr M) 0 <= nth n (c_ptr M) 0).
  { assert (Hg : forall m, i < m -> m <= n -> nth (S i) (c_ptr M) 0 <= nth m (c_ptr M) 0).
    { induction m as [|m IHm]; intros H1 H2; [lia|].
      destruct (Nat.eq_dec i m) as [->|]; [lia|]. specialize (IHm ltac:(lia) ltac:(lia)).
      specialize (Hmono m ltac:(lia)). lia. }
    apply Hg; lia. }
  specialize (Hmono i Hi). lia.
Qed.
(** the rows of well-formed arrays are the arrays *)
Lemma rows_total n M : csr_ok n M ->
  length (c_data M) = length (concat (map (row_entries M) (seq 0 n))).
Proof.
  intros (Hl & H0 & Hmono & Hn & _). rewrite <- Hn.
  assert (H : forall m, m <= n -> nth m (c_ptr M) 0 = length (concat (map (row_entries M) (seq 0 m)))).
  { induction m as [|m IH]; intros Hm; [exact H0|]. rewrite seq_S, map_app, concat_app, app_length.
    rewrite <- IH by lia. simpl. rewrite app_nil_r. unfold row_entries, row_range.
    rewrite map_length, seq_length. specialize (Hmono m ltac:(lia)). lia. }
  apply H. lia.
Qed.

(** * C27: the accumulator *)
Definition spa_ok (size : nat) (s : spa) : Prop := length (sp_w s) = size /\ length (sp_b s) = size.
(** state of the accumulator inside a row after scattering [l] *)
Definition spa_row (size : nat) (s : spa) (l : list (nat * num)) : Prop :=
  spa_ok size s /\ NoDup (sp_LS s) /\
  (forall p, In p (sp_LS s) <-> In p (map fst l)) /\
  (forall p, p < size -> (nth p (sp_b s) 0 <= sp_row s)%Z) /\
  (forall p, p < size -> (nth p (sp_b s) 0%Z = sp_row s <-> In p (map fst l))) /\
  (forall p, In p (map fst l) -> nth p (sp_w s) 0%num = scattered l p).
Lemma scattered_app l1 l2 p : scattered (l1 ++ l2) p = (scattered l1 p + scattered l2 p)%num.
Proof. apply sumL_app. Qed.
Lemma scattered_notin l p : ~ In p (map fst l) -> scattered l p = 0%num.
Proof.
  intros H. apply sumL_zero. intros e He. destruct (Nat.eqb_spec (fst e) p) as [E|]; [|reflexivity].
  exfalso. apply H. rewrite <- E. now apply in_map.
Qed.
Lemma scatter_row size s l v p : spa_row size s l -> p < size -> spa_row size (scatter s v p) (l ++ [(p, v)]).
Proof.
  intros ((Hw & Hb) & Hnd & Hls & Hle & Heq & Hv) Hp. unfold scatter.
  assert (Hin : forall q, In q (map fst (l ++ [(p, v)])) <-> In q (map fst l) \/ q = p).
  { intros q. rewrite map_app, in_app_iff. simpl. intuition. }
  assert (Hsc : forall q, scattered (l ++ [(p, v)]) q = (scattered l q + (if p =? q then v else 0))%num).
  { intros q. rewrite scattered_app. f_equal. unfold scattered. rewrite sumL_cons, sumL_nil. simpl. ring. }
  destruct (Z.ltb_spec (nth p (sp_b s) 0%Z) (sp_row s)) as [Hlt|Hge].
  - assert (Hnew : ~ In p (map fst l)) by (rewrite <- Heq by exact Hp; lia).
    unfold spa_row, spa_ok. cbn [sp_w sp_b sp_row sp_LS]. rewrite !upd_length.
    split; [auto|]. split.
    { apply (Permutation_NoDup (l := p :: sp_LS s)).
      - apply Permutation_cons_append.
      - constructor; [now rewrite Hls|exact Hnd]. }
    split. { intros q. rewrite Hin, in_app_iff, Hls. simpl. split; [intros [H|[H|[]]]; auto|intros [H|H]; auto]. }
    split.
    { intros q Hq. destruct (Nat.eq_dec p q) as [<-|Hn]; [rewrite nth_upd_eq by lia; lia|].
      rewrite nth_upd_neq by exact Hn. auto. }
    split.
    { intros q Hq. rewrite Hin. destruct (Nat.eq_dec p q) as [<-|Hn].
      - rewrite nth_upd_eq by lia. intuition.
      - rewrite nth_upd_neq by exact Hn. rewrite Heq by exact Hq. split; [auto|intros [H|H]; [auto|congruence]]. }
    intros q Hq. apply Hin in Hq. rewrite Hsc. destruct (Nat.eq_dec p q) as [<-|Hn].
    + rewrite nth_upd_eq by lia. rewrite Nat.eqb_refl, scattered_notin by exact Hnew. ring.
    + rewrite nth_upd_neq by exact Hn. destruct Hq as [Hq|Hq]; [|congruence].
      rewrite Hv by exact Hq. destruct (Nat.eqb_spec p q); [congruence|]. ring.
  - assert (Hold : In p (map fst l)) by (apply Heq; [exact Hp|]; specialize (Hle p Hp); lia).
    unfold spa_row, spa_ok. cbn [sp_w sp_b sp_row sp_LS]. rewrite !upd_length.
    split; [auto|]. split; [exact Hnd|].
    split. { intros q. rewrite Hin, Hls. intuition. subst. exact Hold. }
    split; [exact Hle|]. split.
    { intros q Hq. rewrite Hin, Heq by exact Hq. intuition. subst. exact Hold. }
    intros q Hq. rewrite Hsc. destruct (Nat.eq_dec p q) as [<-|Hn].
    + rewrite nth_upd_eq by lia. rewrite Nat.eqb_refl, Hv by exact Hold. reflexivity.
    + rewrite nth_upd_neq by exact Hn. apply Hin in Hq. destruct Hq as [Hq|Hq]; [|congruence].
      rewrite Hv by exact Hq. destruct (Nat.eqb_spec p q); [congruence|]. ring.
Qed.
Lemma scatter_all_row size l2 : forall s l1, spa_row size s l1 -> (forall e, In e l2 -> fst e < size) ->
  spa_row size (scatter_all s l2) (l1 ++ l2).
Proof.
  induction l2 as [|[p v] l2 IH]; intros s l1 Hs Hb; simpl; [now rewrite app_nil_r|].
  replace (l1 ++ (p, v) :: l2) with ((l1 ++ [(p, v)]) ++ l2) by now rewrite <- app_assoc.
  apply IH; [|intros e He; apply Hb; now right].
  apply scatter_row; [exact Hs|]. apply (Hb (p, v)). now left.
Qed.
(** all rows used so far are below [r] *)
Definition spa_below (size : nat) (s : spa) (r : nat) : Prop :=
  spa_ok size s /\ forall p, p < size -> (nth p (sp_b s) 0 < Z.of_nat r)%Z.
Lemma spa_new_below size r : spa_below size (spa_new size) r.
Proof.
  split; [split; apply repeat_length|]. intros p Hp. unfold spa_new. cbn [sp_b].
  rewrite (nth_indep _ 0%Z (-1)%Z) by (rewrite repeat_length; exact Hp). rewrite nth_repeat. lia.
Qed.
Lemma spa_reset_row size s r : spa_below size s r -> spa_row size (spa_reset s r) [].
Proof.
  intros [Hok Hb]. split; [exact Hok|]. unfold spa_reset. cbn [sp_w sp_b sp_row sp_LS].
  split; [constructor|]. split; [intros p; split; intros []|].
  split; [intros p Hp; specialize (Hb p Hp); lia|].
  split; [intros p Hp; specialize (Hb p Hp); split; [lia|intros []]|intros p []].
Qed.
Lemma spa_row_below size s l r : spa_row size s l -> (sp_row s < Z.of_nat r)%Z -> spa_below size s r.
Proof. intros (Hok & _ & _ & Hle & _) Hr. split; [exact Hok|]. intros p Hp. specialize (Hle p Hp). lia. Qed.
Lemma scatter_sp_row s v p : sp_row (scatter s v p) = sp_row s.
Proof. unfold scatter. destruct (_ <? _)%Z; reflexivity. Qed.
Lemma scatter_all_sp_row l : forall s, sp_row (scatter_all s l) = sp_row s.
Proof. induction l as [|e l IH]; intros s; [reflexivity|]. change (scatter_all s (e :: l)) with (scatter_all (scatter s (snd e) (fst e)) l). rewrite IH. apply scatter_sp_row. Qed.
(** the read-out of a row *)
Lemma read_out_spec size s l : spa_row size s l ->
  NoDup (map fst (read_out s)) /\
  (forall p, In p (map fst (read_out s)) <-> In p (map fst l)) /\
  (forall p, scattered (read_out s) p = scattered l p) /\
  (forall e, In e (read_out s) -> snd e = scattered l (fst e)) /\
  length (read_out s) <= length l.
Proof.
  intros (Hok & Hnd & Hls & _ & _ & Hv).
  assert (Hf : map fst (read_out s) = sp_LS s).
  { unfold read_out. rewrite map_map. apply map_id. }
  rewrite Hf. split; [exact Hnd|]. split; [exact Hls|].
  assert (Hs : forall p, scattered (read_out s) p = scattered l p).
  { intros p. unfold scattered at 1, read_out. rewrite sumL_map. cbn [fst snd].
    destruct (in_dec Nat.eq_dec p (sp_LS s)) as [Hin|Hn].
    - rewrite (sumL_rem _ p) by assumption. rewrite Nat.eqb_refl. rewrite sumL_zero.
      + rewrite Hv by (now apply Hls). ring.
      + intros q Hq. apply rem_In in Hq. destruct (Nat.eqb_spec q p); [tauto|reflexivity].
    - rewrite scattered_notin by (rewrite <- Hls; exact Hn). apply sumL_zero.
      intros q Hq. destruct (Nat.eqb_spec q p); [congruence|reflexivity]. }
  split; [exact Hs|]. split.
  - intros e He. unfold read_out in He. apply in_map_iff in He. destruct He as (p & <- & Hp). cbn [fst snd].
    apply Hv. now apply Hls.
  - unfold read_out. rewrite map_length, <- (map_length fst l). apply NoDup_incl_length; [exact Hnd|].
    intros p Hp. now apply Hls.
Qed.
Lemma spa_history_spec size h : forall s,
  (forall r l, In (r, l) h -> forall e, In e l -> fst e < size) ->
  StronglySorted lt (map fst h) ->
  (forall r, In r (map fst h) -> spa_below size s r) ->
  Forall2 outs_exact (map snd h) (snd (spa_history s h)).
Proof.
  induction h as [|[r l] h IH]; intros s Hb Hs Hbel; simpl; [constructor|].
  destruct (spa_history (scatter_all (spa_reset s r) l) h) as [s2 outs] eqn:E. simpl.
  assert (Hrow : spa_row size (scatter_all (spa_reset s r) l) l).
  { apply (scatter_all_row size l _ []).
    - apply spa_reset_row. apply Hbel. now left.
    - apply (Hb r l). now left. }
  simpl in Hs. inversion Hs as [|? ? Hs' Hf]; subst. constructor.
  - destruct (read_out_spec _ _ _ Hrow) as (A & B & _ & C & _). split; [exact A|]. split; assumption.
  - replace outs with (snd (spa_history (scatter_all (spa_reset s r) l) h)) by now rewrite E.
    apply IH; [intros; eapply Hb; [right; eassumption|assumption]|exact Hs'|].
    intros r' Hr'. apply (spa_row_below size _ l); [exact Hrow|].
    rewrite scatter_all_sp_row. cbn [spa_reset sp_row]. rewrite Forall_forall in Hf. specialize (Hf r' Hr'). lia.
Qed.

(** * The represented matrix *)
Definition rep (A : ssm) (i j : nat) : num :=
  match pos i (s_nz A), pos j (s_nz A) with
  | Some a, Some b => value (s_small A) a b
  | _, _ => if i =? j then s_diag A else 0%num
  end.

Lemma value_rows rows i j : i < length rows -> value (of_rows rows) i j = scattered (nth i rows []) j.
Proof. intros Hi. unfold value. rewrite row_entries_of_rows by exact Hi. reflexivity. Qed.
Lemma value_scattered M i j : value M i j = scattered (row_entries M i) j.
Proof. reflexivity. Qed.
(** entries whose columns are renamed injectively *)
Lemma scattered_map (g : nat -> nat) (h : num -> num) l q :
  scattered (map (fun e => (g (fst e), h (snd e))) l) q =
  sumL (fun e => if g (fst e) =? q then h (snd e) else 0%num) l.
Proof. unfold scattered. rewrite sumL_map. reflexivity. Qed.
Lemma scattered_renamed (nz : list nat) (M : csr) a j :
  NoDup nz -> csr_ok (length nz) M -> a < length nz ->
  scattered (map (fun e => (nth (fst e) nz 0, snd e)) (row_entries M a)) j =
  match pos j nz with Some b => value M a b | None => 0%num end.
Proof.
  intros Hn HM Ha. rewrite (scattered_map (fun k => nth k nz 0) (fun v => v)).
  destruct (pos j nz) as [b|] eqn:E.
  - unfold value. apply sumL_ext. intros e He. assert (Hc := row_entries_col _ _ _ _ HM Ha He).
    destruct (Nat.eqb_spec (fst e) b) as [->|Hne].
    + rewrite (pos_nth _ _ _ 0 E), Nat.eqb_refl. reflexivity.
    + destruct (Nat.eqb_spec (nth (fst e) nz 0) j) as [E2|]; [|reflexivity].
      exfalso. apply Hne. assert (H : pos j nz = Some (fst e)) by (rewrite <- E2; now apply pos_of_nth). congruence.
  - apply sumL_zero. intros e He. assert (Hc := row_entries_col _ _ _ _ HM Ha He).
    destruct (Nat.eqb_spec (nth (fst e) nz 0) j) as [E2|]; [|reflexivity].
    exfalso. apply pos_None in E. apply E. rewrite <- E2. now apply nth_In.
Qed.

(** ** to_full_mat *)
Lemma sorted_pos l c : StronglySorted lt l -> In c l ->
  nth_error l (length (filter (fun a => a <? c) l)) = Some c.
Proof.
  induction 1 as [|a l Hs IH Hf]; intros Hin; [destruct Hin|].
  rewrite Forall_forall in Hf. simpl. destruct (Nat.ltb_spec a c) as [Hlt|Hge].
  - simpl. apply IH. destruct Hin as [->|Hin]; [lia|exact Hin].
  - assert (Hz : filter (fun a => a <? c) l = []).
    { destruct (filter (fun a => a <? c) l) as [|x r] eqn:E; [reflexivity|].
      assert (Hx : In x (filter (fun a => a <? c) l)) by (rewrite E; now left).
      apply filter_In in Hx. destruct Hx as [Hx Hl]. apply Nat.ltb_lt in Hl. specialize (Hf x Hx). lia. }
    rewrite Hz. simpl. destruct Hin as [->|Hin]; [reflexivity|]. specialize (Hf c Hin). lia.
Qed.
Lemma sorted_pos' l c : StronglySorted lt l -> In c l -> pos c l = Some (length (filter (fun a => a <? c) l)).
Proof. intros Hs Hin. apply pos_nth_error; [now apply sorted_NoDup|]. now apply sorted_pos. Qed.
Lemma count_succ l c : NoDup l ->
  length (filter (fun a => a <? S c) l) = length (filter (fun a => a <? c) l) + (if memb c l then 1 else 0).
Proof.
  induction 1 as [|a l Hni Hnd IH]; simpl; [reflexivity|].
  change (memb c (a :: l)) with ((c =? a) || memb c l).
  destruct (Nat.eqb_spec c a) as [->|Hn].
  - destruct (Nat.ltb_spec a (S a)); [|lia]. destruct (Nat.ltb_spec a a); [lia|]. simpl. rewrite IH.
    destruct (memb_spec a l); [contradiction|]. lia.
  - simpl. destruct (Nat.ltb_spec a (S c)), (Nat.ltb_spec a c); simpl; rewrite ?IH; lia.
Qed.

Definition rebuild_row (M : csr) (nz : list nat) (diag : num) (i : nat) : list (nat * num) :=
  match pos i nz with
  | Some a => map (fun e => (nth (fst e) nz 0, snd e)) (row_entries M a)
  | None => if qeqb diag 0%num then [] else [(i, diag)]
  end.
Lemma rebuild_rows_spec M nz diag left : StronglySorted lt nz -> forall row small,
  small = length (filter (fun a => a <? row) nz) ->
  rebuild_rows M nz diag row left small = map (rebuild_row M nz diag) (seq row left).
Proof.
  intros Hs. induction left as [|left IH]; intros row small E; simpl; [reflexivity|].
  unfold rebuild_row at 1. rewrite memb_pos. destruct (pos row nz) as [a|] eqn:Ep.
  - assert (Hin : In row nz) by (apply pos_In; eauto).
    pose proof (sorted_pos' nz row Hs Hin) as Hp. rewrite Ep in Hp. injection Hp as ->. rewrite <- E. f_equal.
    apply IH. rewrite count_succ by now apply sorted_NoDup.
    destruct (memb_spec row nz); [lia|contradiction].
  - f_equal. apply IH. rewrite count_succ by now apply sorted_NoDup. apply pos_None in Ep.
    destruct (memb_spec row nz); [contradiction|lia].
Qed.
Lemma total_map {A} (f : A -> list (nat * num)) l : total (map f l) = fold_right (fun a n => length (f a) + n) 0 l.
Proof. unfold total. induction l as [|a l IH]; simpl; [reflexivity|]. rewrite app_length, IH. reflexivity. Qed.
Definition nsum {A} (f : A -> nat) (l : list A) : nat := fold_right (fun a n => f a + n) 0 l.
Lemma nsum_perm {A} (f : A -> nat) l1 l2 : Permutation l1 l2 -> nsum f l1 = nsum f l2.
Proof. induction 1; simpl; lia. Qed.
Lemma nsum_ext {A} (f g : A -> nat) l : (forall a, In a l -> f a = g a) -> nsum f l = nsum g l.
Proof. induction l as [|a l IH]; intros H; simpl; [reflexivity|]. rewrite H by now left. rewrite IH; [reflexivity|]. intros; apply H; now right. Qed.
Lemma nsum_le {A} (f g : A -> nat) l : (forall a, In a l -> f a <= g a) -> nsum f l <= nsum g l.
Proof. induction l as [|a l IH]; intros H; simpl; [lia|]. specialize (H a (or_introl eq_refl)) as Ha. specialize (IH (fun b Hb => H b (or_intror Hb))). lia. Qed.
Lemma nsum_split {A} (p : A -> bool) (f : A -> nat) l :
  nsum f l = nsum f (filter p l) + nsum f (filter (fun a => negb (p a)) l).
Proof. induction l as [|a l IH]; simpl; [reflexivity|]. destruct (p a); simpl; lia. Qed.
Lemma nsum_map {A B} (g : A -> B) (f : B -> nat) l : nsum f (map g l) = nsum (fun a => f (g a)) l.
Proof. induction l as [|a l IH]; simpl; lia. Qed.
Lemma nsum_const {A} c (l : list A) : nsum (fun _ => c) l = c * length l.
Proof. induction l as [|a l IH]; simpl; lia. Qed.
Lemma nsum_seq_nth (f : nat -> nat) (l : list nat) : nsum f l = nsum (fun k => f (nth k l 0)) (seq 0 (length l)).
Proof. rewrite <- (nsum_map (fun k => nth k l 0) f). now rewrite map_nth_seq. Qed.
(** indices below n: those in nz, and the others *)
Lemma sub_seq_perm nz n : NoDup nz -> (forall i, In i nz -> i < n) ->
  Permutation (filter (fun i => memb i nz) (seq 0 n)) nz.
Proof.
  intros Hn Hb. apply NoDup_Permutation; [apply filter_NoDup, seq_NoDup|exact Hn|].
  intros i. rewrite filter_In, memb_In, seq_In_iff. intuition.
Qed.
Lemma filter_length {A} (p : A -> bool) l :
  length (filter p l) + length (filter (fun a => negb (p a)) l) = length l.
Proof. induction l as [|a l IH]; simpl; [reflexivity|]. destruct (p a); simpl; lia. Qed.

Lemma to_full_spec A : ssm_ok A -> full_is A (rep A).
Proof.
  intros (HM & Hs & Hb). unfold full_is, to_full_mat, rebuild.
  set (nz := s_nz A) in *. set (M := s_small A) in *. set (n := s_size A) in *. set (d := s_diag A) in *.
  assert (Hnd := sorted_NoDup nz Hs).
  assert (Hr' : rebuild_rows M nz d 0 n 0 = map (rebuild_row M nz d) (seq 0 n)).
  { apply rebuild_rows_spec; [exact Hs|]. clear. generalize nz. intros l. induction l; [reflexivity|assumption]. }
  rewrite Hr'.
  set (rows := map (rebuild_row M nz d) (seq 0 n)).
  assert (Hlen : length rows = n) by (unfold rows; now rewrite map_length, seq_length).
  assert (Hsum : nsum (fun a => length (row_entries M a)) (seq 0 (length nz)) = length (c_data M)).
  { rewrite (rows_total _ _ HM). fold (total (map (row_entries M) (seq 0 (length nz)))). rewrite total_map. reflexivity. }
  assert (Htot : total rows = length (c_data M) + (if qeqb d 0%num then 0 else n - length nz)).
  { unfold rows. rewrite total_map. fold (nsum (fun i => length (rebuild_row M nz d i)) (seq 0 n)).
    rewrite (nsum_split (fun i => memb i nz)). f_equal.
    - rewrite (nsum_perm _ _ _ (sub_seq_perm nz n Hnd Hb)). rewrite nsum_seq_nth, <- Hsum.
      apply nsum_ext. intros k Hk. apply seq_In_iff in Hk. unfold rebuild_row.
      rewrite pos_of_nth by assumption. now rewrite map_length.
    - rewrite (nsum_ext _ (fun _ => if qeqb d 0%num then 0 else 1)).
      + rewrite nsum_const. destruct (qeqb d 0%num); [reflexivity|].
        pose proof (filter_length (fun i => memb i nz) (seq 0 n)) as Hf. rewrite seq_length in Hf.
        rewrite (Permutation_length (sub_seq_perm nz n Hnd Hb)) in Hf. lia.
      + intros i Hi. apply filter_In in Hi. destruct Hi as [_ Hi]. unfold rebuild_row.
        rewrite memb_pos in Hi. destruct (pos i nz); [discriminate|]. destruct (qeqb d 0%num); reflexivity. }
  assert (Hle : length nz <= n).
  { rewrite <- (seq_length n 0). apply NoDup_incl_length; [exact Hnd|]. intros i Hi. apply seq_In_iff. auto. }
  replace (total rows <=? _) with true.
  2:{ symmetry. apply Nat.leb_le. rewrite Htot. destruct (qeqb d 0%num); lia. }
  eexists. split; [reflexivity|]. split.
  - apply csr_ok_of_rows; [exact Hlen|]. intros r e Hr He. unfold rows in Hr. apply in_map_iff in Hr.
    destruct Hr as (i & <- & Hi). apply seq_In_iff in Hi. unfold rebuild_row in He.
    destruct (pos i nz) as [a|] eqn:Ep.
    + apply in_map_iff in He. destruct He as (e' & <- & He'). cbn [fst].
      apply Hb. apply nth_In. apply (row_entries_col _ _ _ _ HM (pos_lt _ _ _ Ep) He').
    + destruct (qeqb d 0%num); [destruct He|]. destruct He as [<-|[]]. exact Hi.
  - intros i j Hi Hj. rewrite value_rows by lia. unfold rows.
    rewrite (nth_map_dep _ _ _ 0) by (rewrite seq_length; exact Hi). rewrite seq_nth by exact Hi. simpl.
    unfold rebuild_row, rep. fold nz M d. destruct (pos i nz) as [a|] eqn:Ep.
    + rewrite (scattered_renamed nz M a j Hnd HM (pos_lt _ _ _ Ep)).
      destruct (pos j nz) eqn:Ej; [reflexivity|]. destruct (Nat.eqb_spec i j); [subst; congruence|reflexivity].
    + destruct (qeqb_spec d 0%num) as [Hd|Hd].
      * unfold scattered. rewrite sumL_nil. destruct (pos j nz), (i =? j); congruence.
      * unfold scattered. rewrite sumL_cons, sumL_nil. cbn [fst snd].
        destruct (pos j nz), (i =? j); ring.
Qed.
Lemma full_rep A i j : ssm_ok A -> i < s_size A -> j < s_size A -> full A i j = rep A i j.
Proof.
  intros HA Hi Hj. destruct (to_full_spec A HA) as (F & HF & _ & Hv). unfold full. rewrite HF. auto.
Qed.
Lemma full_is_full A : ssm_ok A -> full_is A (full A).
Proof.
  intros HA. destruct (to_full_spec A HA) as (F & HF & Hok & Hv). exists F. split; [exact HF|].
  split; [exact Hok|]. intros i j Hi Hj. unfold full. now rewrite HF.
Qed.
