From Verif Require Import Base SparseModel SparseSpec SparseProofs.

(** * Column maps *)
Lemma advance_spec a cnz : forall ic p, pos a cnz = Some p -> advance a cnz ic = Some (ic + p, skipn p cnz).
Proof.
  induction cnz as [|c r IH]; intros ic p H; simpl in *; [discriminate|].
  destruct (a =? c) eqn:E; [injection H as <-; rewrite Nat.add_0_r; reflexivity|].
  destruct (pos a r) as [p'|] eqn:Ep; [|discriminate]. injection H as <-.
  rewrite (IH (S ic) p' eq_refl). simpl. do 2 f_equal. lia.
Qed.
Lemma nth_error_skipn {A} (l : list A) p k : nth_error (skipn p l) k = nth_error l (p + k).
Proof. revert l. induction p as [|p IH]; intros l; [reflexivity|]. destruct l; [destruct k; reflexivity|]. apply IH. Qed.
Lemma skipn_sorted p l : StronglySorted lt l -> StronglySorted lt (skipn p l).
Proof.
  revert l. induction p as [|p IH]; intros l Hs; [exact Hs|]. destruct l as [|x l]; [constructor|].
  simpl. apply IH. now inversion Hs.
Qed.
Lemma sorted_In_skipn l p a x : StronglySorted lt l -> pos a l = Some p -> In x l -> a <= x -> In x (skipn p l).
Proof.
  revert p. induction l as [|y l IH]; intros p Hs Hp Hin Hle; [destruct Hin|].
  simpl in Hp. destruct (Nat.eqb_spec a y).
  - injection Hp as <-. exact Hin.
  - destruct (pos a l) as [p'|] eqn:E; [|discriminate]. injection Hp as <-. simpl.
    inversion Hs as [|? ? Hs' Hf]; subst. apply IH; auto. destruct Hin as [<-|Hin]; [|exact Hin].
    rewrite Forall_forall in Hf. assert (In a l) by (apply pos_In; eauto). specialize (Hf a H). lia.
Qed.
Lemma col_map_spec anz : forall cnz ic, StronglySorted lt anz -> StronglySorted lt cnz -> incl anz cnz ->
  exists l, col_map anz cnz ic = Some l /\ length l = length anz /\
    forall k, k < length anz -> exists p, pos (nth k anz 0) cnz = Some p /\ nth k l 0 = ic + p.
Proof.
  induction anz as [|a r IH]; intros cnz ic Ha Hc Hi; simpl.
  - exists []. split; [reflexivity|]. split; [reflexivity|]. intros k Hk. lia.
  - inversion Ha as [|? ? Ha' Hf]; subst. rewrite Forall_forall in Hf.
    assert (Hin : In a cnz) by (apply Hi; now left). apply pos_In in Hin. destruct Hin as [p Hp].
    rewrite (advance_spec a cnz ic p Hp).
    assert (Hi' : incl r (skipn p cnz)).
    { intros x Hx. apply (sorted_In_skipn _ _ a); [exact Hc|exact Hp|apply Hi; now right|]. specialize (Hf x Hx). lia. }
    destruct (IH (skipn p cnz) (ic + p) Ha' (skipn_sorted p cnz Hc) Hi') as (l & El & Hl & Hk).
    rewrite El. exists ((ic + p) :: l). split; [reflexivity|]. split; [simpl; lia|].
    intros [|k] Hlt; [exists p; auto|]. simpl in Hlt. destruct (Hk k ltac:(lia)) as (p' & Hp' & Hn).
    exists (p + p'). split; [|simpl; lia]. apply pos_nth_error; [now apply sorted_NoDup|].
    rewrite <- nth_error_skipn. now apply pos_Some.
Qed.

(** * A + B and A - B *)
Lemma count_not_suffix anz c r : NoDup anz -> ~ In c r ->
  length (filter (fun a => negb (memb a r)) anz) =
  length (filter (fun a => negb (memb a (c :: r))) anz) + (if memb c anz then 1 else 0).
Proof.
  intros Hn Hc. induction Hn as [|a l Hni Hnd IH]; [reflexivity|].
  change (memb c (a :: l)) with ((c =? a) || memb c l). cbn [filter].
  change (memb a (c :: r)) with ((a =? c) || memb a r).
  destruct (Nat.eqb_spec a c) as [->|Hne].
  - rewrite Nat.eqb_refl. rewrite (proj2 (memb_false c r) Hc). rewrite (proj2 (memb_false c l) Hni) in IH.
    cbn [orb negb length]. rewrite IH. lia.
  - rewrite (proj2 (Nat.eqb_neq c a)) by congruence. cbn [orb]. destruct (memb a r); cbn [negb length]; rewrite IH; lia.
Qed.
Lemma suffix_pos anz pre c r : StronglySorted lt anz -> StronglySorted lt (pre ++ c :: r) ->
  incl anz (pre ++ c :: r) -> In c anz ->
  pos c anz = Some (length (filter (fun a => negb (memb a (c :: r))) anz)).
Proof.
  intros Ha Hc Hi Hin. rewrite (sorted_pos' anz c Ha Hin). do 2 f_equal.
  apply filter_ext_in. intros a Hain.
  assert (Hpre : forall x, In x pre -> x < c).
  { clear -Hc. induction pre as [|y pre IH]; intros x Hx; [destruct Hx|].
    simpl in Hc. inversion Hc as [|? ? Hc' Hf]; subst. destruct Hx as [<-|Hx]; [|now apply IH].
    rewrite Forall_forall in Hf. apply Hf. apply in_or_app. right. now left. }
  assert (Hsuf : forall x, In x (c :: r) -> c <= x).
  { clear -Hc. induction pre as [|y pre IH]; simpl in Hc.
    - inversion Hc as [|? ? Hc' Hf]; subst. rewrite Forall_forall in Hf. intros x [<-|Hx]; [lia|]. specialize (Hf x Hx). lia.
    - apply IH. now inversion Hc. }
  destruct (memb_spec a (c :: r)) as [Hm|Hm].
  - specialize (Hsuf a Hm). destruct (Nat.ltb_spec a c); [lia|reflexivity].
  - assert (Hp : In a pre) by (specialize (Hi a Hain); apply in_app_or in Hi; tauto).
    specialize (Hpre a Hp). destruct (Nat.ltb_spec a c); [reflexivity|lia].
Qed.

Section Op.
Variables (sg : num) (A B : ssm).
Hypothesis HA : ssm_ok A.
Hypothesis HB : ssm_ok B.
Let anz := s_nz A.
Let bnz := s_nz B.
Let cnz := unique (anz ++ bnz).
Variables amap bmap : list nat.
Hypothesis Hamap : length amap = length anz /\
  forall k, k < length anz -> exists p, pos (nth k anz 0) cnz = Some p /\ nth k amap 0 = p.
Hypothesis Hbmap : length bmap = length bnz /\
  forall k, k < length bnz -> exists p, pos (nth k bnz 0) cnz = Some p /\ nth k bmap 0 = p.

Let part_a (i : nat) : list (nat * num) :=
  match pos i anz with
  | Some a => map (fun e => (nth (fst e) amap 0, snd e)) (row_entries (s_small A) a)
  | None => []
  end.
Let part_b (i : nat) : list (nat * num) :=
  match pos i bnz with
  | Some b => map (fun e => (nth (fst e) bmap 0, (sg * snd e)%num)) (row_entries (s_small B) b)
  | None => []
  end.
Let scat (i ic : nat) : list (nat * num) :=
  part_a i ++ part_b i
  ++ (if memb i anz && negb (memb i bnz) then [(ic, (sg * s_diag B)%num)] else [])
  ++ (if memb i bnz && negb (memb i anz) then [(ic, s_diag A)] else []).

Lemma cnz_sorted : StronglySorted lt cnz. Proof. apply unique_sorted. Qed.
Lemma anz_incl : incl anz cnz. Proof. intros i Hi. apply unique_In, in_or_app. now left. Qed.
Lemma bnz_incl : incl bnz cnz. Proof. intros i Hi. apply unique_In, in_or_app. now right. Qed.

Lemma part_a_bound i e : In e (part_a i) -> fst e < length cnz.
Proof.
  unfold part_a. destruct (pos i anz) as [a|] eqn:E; [|intros []]. intros He.
  apply in_map_iff in He. destruct He as (e' & <- & He'). cbn [fst].
  destruct HA as (HM & _). assert (Hc := row_entries_col _ _ _ _ HM (pos_lt _ _ _ E) He').
  destruct (proj2 Hamap _ Hc) as (p & Hp & ->). now apply pos_lt in Hp.
Qed.
Lemma part_b_bound i e : In e (part_b i) -> fst e < length cnz.
Proof.
  unfold part_b. destruct (pos i bnz) as [a|] eqn:E; [|intros []]. intros He.
  apply in_map_iff in He. destruct He as (e' & <- & He'). cbn [fst].
  destruct HB as (HM & _). assert (Hc := row_entries_col _ _ _ _ HM (pos_lt _ _ _ E) He').
  destruct (proj2 Hbmap _ Hc) as (p & Hp & ->). now apply pos_lt in Hp.
Qed.

Lemma op_rows_spec suffix : forall pre ia ib s,
  cnz = pre ++ suffix ->
  ia = length (filter (fun a => negb (memb a suffix)) anz) ->
  ib = length (filter (fun a => negb (memb a suffix)) bnz) ->
  (forall r, In r suffix -> spa_below (length cnz) s r) ->
  length (op_rows sg A B amap bmap suffix ia ib (length pre) s) = length suffix /\
  forall k, k < length suffix -> exists s',
    spa_row (length cnz) s' (scat (nth k suffix 0) (length pre + k)) /\
    nth k (op_rows sg A B amap bmap suffix ia ib (length pre) s) [] = read_out s'.
Proof.
  induction suffix as [|i r IH]; intros pre ia ib s Ec Eia Eib Hbel.
  - split; [reflexivity|]. intros k Hk. simpl in Hk. lia.
  - cbn [op_rows]. fold anz bnz.
    assert (Hsorted := cnz_sorted). rewrite Ec in Hsorted.
    assert (Hic : length pre < length cnz) by (rewrite Ec, app_length; simpl; lia).
    assert (Hnr : ~ In i r).
    { intros Hin. apply sorted_NoDup in Hsorted. apply NoDup_remove_2 in Hsorted.
      apply Hsorted. apply in_or_app. now right. }
    set (s0 := spa_reset s i).
    assert (H0 : spa_row (length cnz) s0 []) by (apply spa_reset_row, Hbel; now left).
    assert (Hrow0 : sp_row s0 = Z.of_nat i) by reflexivity.
    set (s1 := if memb i anz then _ else s0).
    assert (H1 : spa_row (length cnz) s1 (part_a i) /\ sp_row s1 = Z.of_nat i).
    { unfold s1, part_a. rewrite memb_pos. destruct (pos i anz) as [a|] eqn:E; [|auto].
      assert (Hin : In i anz) by (apply pos_In; eauto).
      assert (Ha : a = ia).
      { rewrite (suffix_pos anz pre i r) in E; [congruence|apply HA|exact Hsorted| |exact Hin].
        rewrite <- Ec. apply anz_incl. }
      subst a. split; [|rewrite scatter_all_sp_row; exact Hrow0].
      apply (scatter_all_row _ _ _ []); [exact H0|]. intros e He. apply (part_a_bound i). unfold part_a.
      rewrite E. exact He. }
    clearbody s1. destruct H1 as [H1 Hrow1].
    set (s2 := if memb i bnz then _ else s1).
    assert (H2 : spa_row (length cnz) s2 (part_a i ++ part_b i) /\ sp_row s2 = Z.of_nat i).
    { unfold s2. unfold part_b. rewrite memb_pos. destruct (pos i bnz) as [b|] eqn:E; [|rewrite app_nil_r; auto].
      assert (Hin : In i bnz) by (apply pos_In; eauto).
      assert (Hb : b = ib).
      { rewrite (suffix_pos bnz pre i r) in E; [congruence|apply HB|exact Hsorted| |exact Hin].
        rewrite <- Ec. apply bnz_incl. }
      subst b. split; [|rewrite scatter_all_sp_row; exact Hrow1].
      apply scatter_all_row; [exact H1|]. intros e He. apply (part_b_bound i). unfold part_b.
      rewrite E. exact He. }
    clearbody s2. destruct H2 as [H2 Hrow2].
    set (l3 := if memb i anz && negb (memb i bnz) then [(length pre, (sg * s_diag B)%num)] else []).
    set (s3 := if memb i anz && negb (memb i bnz) then _ else s2).
    assert (H3 : spa_row (length cnz) s3 ((part_a i ++ part_b i) ++ l3) /\ sp_row s3 = Z.of_nat i).
    { unfold s3, l3. destruct (memb i anz && negb (memb i bnz)); [|rewrite app_nil_r; auto].
      split; [now apply scatter_row|rewrite scatter_sp_row; exact Hrow2]. }
    clearbody s3. destruct H3 as [H3 Hrow3].
    set (l4 := if memb i bnz && negb (memb i anz) then [(length pre, s_diag A)] else []).
    set (s4 := if memb i bnz && negb (memb i anz) then _ else s3).
    assert (H4 : spa_row (length cnz) s4 (((part_a i ++ part_b i) ++ l3) ++ l4) /\ sp_row s4 = Z.of_nat i).
    { unfold s4, l4. destruct (memb i bnz && negb (memb i anz)); [|rewrite app_nil_r; auto].
      split; [now apply scatter_row|rewrite scatter_sp_row; exact Hrow3]. }
    clearbody s4. destruct H4 as [H4 Hrow4].
    replace (((part_a i ++ part_b i) ++ l3) ++ l4) with (scat i (length pre)) in H4
      by (unfold scat, l3, l4; now rewrite <- !app_assoc).
    destruct (IH (pre ++ [i]) (if memb i anz then S ia else ia) (if memb i bnz then S ib else ib) s4) as [IHl IHk].
    + rewrite <- app_assoc. exact Ec.
    + rewrite (count_not_suffix anz i r) by (first [apply sorted_NoDup, HA|exact Hnr]).
      rewrite <- Eia. destruct (memb i anz); lia.
    + rewrite (count_not_suffix bnz i r) by (first [apply sorted_NoDup, HB|exact Hnr]).
      rewrite <- Eib. destruct (memb i bnz); lia.
    + intros r' Hr'. apply (spa_row_below _ _ _ _ H4). rewrite Hrow4.
      assert (Hlt : i < r'); [|lia]. clear -Hsorted Hr'.
      induction pre as [|y pre IHp]; simpl in Hsorted.
      * inversion Hsorted as [|? ? ? Hf]; subst. rewrite Forall_forall in Hf. auto.
      * apply IHp. now inversion Hsorted.
    + rewrite app_length in IHl, IHk. simpl length in IHl, IHk. rewrite Nat.add_1_r in IHl, IHk.
      split; [simpl; now rewrite IHl|]. intros [|k] Hk.
      * exists s4. rewrite Nat.add_0_r. split; [exact H4|reflexivity].
      * simpl in Hk. destruct (IHk k ltac:(lia)) as (s' & Hs' & En). exists s'.
        split; [|exact En]. simpl. replace (length pre + S k) with (S (length pre) + k) by lia. exact Hs'.
Qed.

Lemma scat_length i ic : length (scat i ic) <=
  length (part_a i) + length (part_b i) + 1.
Proof.
  unfold scat. rewrite !app_length. destruct (memb i anz), (memb i bnz); simpl; lia.
Qed.
Lemma parts_total (nz : list nat) (M : csr) : incl nz cnz -> NoDup nz -> csr_ok (length nz) M ->
  nsum (fun i => match pos i nz with Some a => length (row_entries M a) | None => 0 end) cnz = length (c_data M).
Proof.
  intros Hi Hn HM. rewrite (nsum_split (fun i => memb i nz)).
  assert (Hp : Permutation (filter (fun i => memb i nz) cnz) nz).
  { apply NoDup_Permutation; [apply filter_NoDup, sorted_NoDup, cnz_sorted|exact Hn|].
    intros i. rewrite filter_In, memb_In. intuition. }
  rewrite (nsum_perm _ _ _ Hp), nsum_seq_nth.
  rewrite (nsum_ext _ (fun k => length (row_entries M k)) (seq 0 (length nz))).
  - rewrite (rows_total _ _ HM). fold (total (map (row_entries M) (seq 0 (length nz)))). rewrite total_map.
    fold (nsum (fun a => length (row_entries M a)) (seq 0 (length nz))).
    rewrite (nsum_ext _ (fun _ => 0) (filter _ cnz)); [rewrite nsum_const; lia|].
    intros i Hin. apply filter_In in Hin. destruct Hin as [_ Hin]. rewrite memb_pos in Hin.
    destruct (pos i nz); [discriminate|reflexivity].
  - intros k Hk. apply seq_In_iff in Hk. now rewrite pos_of_nth.
Qed.
Lemma unique_length l : length (unique l) <= length l.
Proof.
  induction l as [|a l IH]; simpl; [lia|].
  assert (H : forall x m, length (ins x m) <= S (length m)).
  { intros x m. induction m as [|y m IHm]; simpl; [lia|]. destruct (x <? y); simpl; [lia|].
    destruct (x =? y); simpl; lia. }
  specialize (H a (unique l)). lia.
Qed.

Let rows := op_rows sg A B amap bmap cnz 0 0 0 (spa_new (length cnz)).
Lemma rows_spec : length rows = length cnz /\
  forall k, k < length cnz -> exists s', spa_row (length cnz) s' (scat (nth k cnz 0) k) /\ nth k rows [] = read_out s'.
Proof.
  apply (op_rows_spec cnz [] 0 0); [reflexivity| | |intros; apply spa_new_below].
  - replace (filter (fun a => negb (memb a cnz)) anz) with (@nil nat); [reflexivity|]. symmetry.
    assert (H : forall l, incl l cnz -> filter (fun a => negb (memb a cnz)) l = []).
    { induction l as [|x l IH]; intros Hi; [reflexivity|]. simpl. destruct (memb_spec x cnz) as [|Hx].
      - simpl. apply IH. intros y Hy. apply Hi. now right.
      - exfalso. apply Hx, Hi. now left. }
    apply H, anz_incl.
  - replace (filter (fun a => negb (memb a cnz)) bnz) with (@nil nat); [reflexivity|]. symmetry.
    assert (H : forall l, incl l cnz -> filter (fun a => negb (memb a cnz)) l = []).
    { induction l as [|x l IH]; intros Hi; [reflexivity|]. simpl. destruct (memb_spec x cnz) as [|Hx].
      - simpl. apply IH. intros y Hy. apply Hi. now right.
      - exfalso. apply Hx, Hi. now left. }
    apply H, bnz_incl.
Qed.
Lemma rows_bound r e : In r rows -> In e r -> fst e < length cnz.
Proof.
  destruct rows_spec as [Hl Hk]. intros Hr He.
  destruct (In_nth rows r [] Hr) as (k & Hkl & <-). rewrite Hl in Hkl.
  destruct (Hk k Hkl) as (s' & Hs' & Ek). rewrite Ek in He.
  destruct (read_out_spec _ _ _ Hs') as (_ & Hin & _).
  assert (H : In (fst e) (map fst (scat (nth k cnz 0) k))) by (apply Hin, in_map, He).
  apply in_map_iff in H. destruct H as (e' & <- & He'). unfold scat in He'.
  apply in_app_or in He'. destruct He' as [He'|He']; [now apply (part_a_bound (nth k cnz 0))|].
  apply in_app_or in He'. destruct He' as [He'|He']; [now apply (part_b_bound (nth k cnz 0))|].
  apply in_app_or in He'. destruct He' as [He'|He'].
  - destruct (_ && _); [destruct He' as [<-|[]]; exact Hkl|destruct He'].
  - destruct (_ && _); [destruct He' as [<-|[]]; exact Hkl|destruct He'].
Qed.
Lemma rows_fit : total rows <= length (c_data (s_small A)) + length (c_data (s_small B))
   + length (c_ptr (s_small A)) + length (c_ptr (s_small B)).
Proof.
  destruct rows_spec as [Hl Hk].
  assert (Ht : total rows = nsum (fun k => length (nth k rows [])) (seq 0 (length cnz))).
  { rewrite <- Hl. unfold total. clear. induction rows as [|r t IH]; [reflexivity|].
    simpl. rewrite app_length, IH. f_equal. rewrite <- seq_shift.
    rewrite (nsum_map S (fun k => length (match k with 0 => r | S m => nth m t [] end))). reflexivity. }
  rewrite Ht.
  assert (H1 : nsum (fun k => length (nth k rows [])) (seq 0 (length cnz)) <=
     nsum (fun k => length (part_a (nth k cnz 0)) + length (part_b (nth k cnz 0)) + 1) (seq 0 (length cnz))).
  { apply nsum_le. intros k Hin. apply seq_In_iff in Hin. destruct (Hk k Hin) as (s' & Hs' & ->).
    destruct (read_out_spec _ _ _ Hs') as (_ & _ & _ & _ & Hle).
    pose proof (scat_length (nth k cnz 0) k). lia. }
  rewrite <- (nsum_map (fun k => nth k cnz 0) (fun i => length (part_a i) + length (part_b i) + 1)) in H1.
  rewrite map_nth_seq in H1.
  assert (H2 : nsum (fun i => length (part_a i) + length (part_b i) + 1) cnz =
    nsum (fun i => length (part_a i)) cnz + nsum (fun i => length (part_b i)) cnz + length cnz).
  { generalize cnz. intros l. induction l as [|a l IH]; simpl; lia. }
  assert (H3 : nsum (fun i => length (part_a i)) cnz = length (c_data (s_small A))).
  { rewrite <- (parts_total anz (s_small A) anz_incl (sorted_NoDup _ (proj1 (proj2 HA))) (proj1 HA)).
    apply nsum_ext. intros i _. unfold part_a. destruct (pos i anz); [apply map_length|reflexivity]. }
  assert (H4 : nsum (fun i => length (part_b i)) cnz = length (c_data (s_small B))).
  { rewrite <- (parts_total bnz (s_small B) bnz_incl (sorted_NoDup _ (proj1 (proj2 HB))) (proj1 HB)).
    apply nsum_ext. intros i _. unfold part_b. destruct (pos i bnz); [apply map_length|reflexivity]. }
  assert (H5 : length cnz <= length anz + length bnz).
  { unfold cnz. rewrite <- app_length. apply unique_length. }
  pose proof (proj1 (proj1 HA)) as HpA. pose proof (proj1 (proj1 HB)) as HpB. fold anz in HpA. fold bnz in HpB. lia.
Qed.

(** values of one operand inside row i *)
Lemma mapped_value (nz : list nat) (M : csr) (m : list nat) (c : num) a q :
  NoDup nz -> csr_ok (length nz) M -> a < length nz -> q < length cnz ->
  (forall k, k < length nz -> exists p, pos (nth k nz 0) cnz = Some p /\ nth k m 0 = p) ->
  scattered (map (fun e => (nth (fst e) m 0, (c * snd e)%num)) (row_entries M a)) q =
  (c * match pos (nth q cnz 0%nat) nz with Some b => value M a b | None => 0 end)%num.
Proof.
  intros Hn HM Ha Hq Hm. rewrite (scattered_map (fun k => nth k m 0) (fun v => (c * v)%num)).
  assert (Hcn := sorted_NoDup _ cnz_sorted).
  assert (Heq : forall e, In e (row_entries M a) -> nth (fst e) m 0 = q <-> nth (fst e) nz 0 = nth q cnz 0).
  { intros e He. assert (Hc := row_entries_col _ _ _ _ HM Ha He). destruct (Hm _ Hc) as (p & Hp & ->). split.
    - intros ->. symmetry. now apply pos_nth.
    - intros E. rewrite E in Hp. rewrite pos_of_nth in Hp by assumption. congruence. }
  destruct (pos (nth q cnz 0) nz) as [b|] eqn:E.
  - unfold value. rewrite <- sumL_scal_l. apply sumL_ext. intros e He.
    assert (Hc := row_entries_col _ _ _ _ HM Ha He).
    destruct (Nat.eqb_spec (fst e) b) as [Heb|Hne].
    + destruct (Nat.eqb_spec (nth (fst e) m 0) q) as [|Hx]; [reflexivity|].
      exfalso. apply Hx, (Heq e He). rewrite Heb. now apply pos_nth.
    + destruct (Nat.eqb_spec (nth (fst e) m 0) q) as [Hx|]; [|ring].
      exfalso. apply Hne. apply (Heq e He) in Hx. rewrite <- Hx, pos_of_nth in E by assumption. congruence.
  - rewrite Qcmult_0_r. apply sumL_zero. intros e He. assert (Hc := row_entries_col _ _ _ _ HM Ha He).
    destruct (Nat.eqb_spec (nth (fst e) m 0) q) as [Hx|]; [|reflexivity].
    exfalso. apply (Heq e He) in Hx. apply pos_None in E. apply E. rewrite <- Hx. now apply nth_In.
Qed.
Let diagC := (s_diag A + sg * s_diag B)%num.
Lemma op_value i j : 
  rep (mkS (s_size A) cnz (of_rows rows) diagC) i j = (rep A i j + sg * rep B i j)%num.
Proof.
  destruct rows_spec as [Hl Hk].
  assert (Hcn := sorted_NoDup _ cnz_sorted).
  assert (HAnd := sorted_NoDup _ (proj1 (proj2 HA))). assert (HBnd := sorted_NoDup _ (proj1 (proj2 HB))).
  fold anz in HAnd. fold bnz in HBnd.
  unfold rep. cbn [s_nz s_small s_diag]. fold anz bnz.
  destruct (pos i cnz) as [p|] eqn:Ei.
  2:{ apply pos_None in Ei.
      assert (Ha : pos i anz = None) by (apply pos_None; intros H; apply Ei, anz_incl, H).
      assert (Hb : pos i bnz = None) by (apply pos_None; intros H; apply Ei, bnz_incl, H).
      rewrite Ha, Hb. unfold diagC. destruct (i =? j); ring. }
  assert (Hp := pos_lt _ _ _ Ei). assert (Hpi := pos_nth _ _ _ 0 Ei).
  destruct (pos j cnz) as [q|] eqn:Ej.
  2:{ apply pos_None in Ej.
      assert (Ha : pos j anz = None) by (apply pos_None; intros H; apply Ej, anz_incl, H).
      assert (Hb : pos j bnz = None) by (apply pos_None; intros H; apply Ej, bnz_incl, H).
      rewrite Ha, Hb.
      assert (Hij : i <> j) by (intros ->; apply Ej, pos_In; eauto).
      rewrite (proj2 (Nat.eqb_neq i j) Hij). destruct (pos i anz), (pos i bnz); ring. }
  assert (Hq := pos_lt _ _ _ Ej). assert (Hqj := pos_nth _ _ _ 0 Ej).
  rewrite value_rows by lia. destruct (Hk p Hp) as (s' & Hs' & ->).
  destruct (read_out_spec _ _ _ Hs') as (_ & _ & Hsc & _). rewrite Hsc, Hpi. unfold scat.
  rewrite !scattered_app.
  assert (Epa : scattered (part_a i) q = match pos i anz with Some a => match pos j anz with Some b => value (s_small A) a b | None => 0 end | None => 0 end%num).
  { unfold part_a. destruct (pos i anz) as [a|] eqn:E; [|reflexivity].
    rewrite (map_ext _ (fun e => (nth (fst e) amap 0, (1 * snd e)%num))) by (intros e; f_equal; ring).
    rewrite (mapped_value anz (s_small A) amap 1%num a q HAnd (proj1 HA) (pos_lt _ _ _ E) Hq (proj2 Hamap)).
    rewrite Hqj. ring. }
  assert (Epb : scattered (part_b i) q = (sg * match pos i bnz with Some a => match pos j bnz with Some b => value (s_small B) a b | None => 0 end | None => 0 end)%num).
  { unfold part_b. destruct (pos i bnz) as [a|] eqn:E; [|unfold scattered; rewrite sumL_nil; ring].
    rewrite (mapped_value bnz (s_small B) bmap sg a q HBnd (proj1 HB) (pos_lt _ _ _ E) Hq (proj2 Hbmap)).
    rewrite Hqj. reflexivity. }
  rewrite Epa, Epb.
  assert (Hpq : (p =? q) = (i =? j)).
  { destruct (Nat.eqb_spec i j) as [->|Hne]; [rewrite Ei in Ej; injection Ej as ->; apply Nat.eqb_refl|].
    apply Nat.eqb_neq. intros ->. congruence. }
  assert (Hd : forall v, scattered [(p, v)] q = if i =? j then v else 0%num).
  { intros v. unfold scattered. rewrite sumL_cons, sumL_nil. cbn [fst snd]. rewrite Hpq. destruct (i =? j); ring. }
  assert (Hn : scattered [] q = 0%num) by reflexivity.
  assert (Hor : In i anz \/ In i bnz).
  { apply in_app_or. apply (unique_In i (anz ++ bnz)). fold cnz. apply pos_In. eauto. }
  rewrite !memb_pos.
  destruct (pos i anz) as [a|] eqn:Ea, (pos i bnz) as [b|] eqn:Eb; cbn [negb andb].
  - rewrite !Hn. destruct (pos j anz) eqn:E, (pos j bnz) eqn:E'; destruct (i =? j) eqn:Eij; try ring;
    apply Nat.eqb_eq in Eij; subst j; congruence.
  - rewrite Hd, Hn. destruct (pos j anz) eqn:E, (pos j bnz) eqn:E'; destruct (i =? j) eqn:Eij; try ring;
    apply Nat.eqb_eq in Eij; subst j; congruence.
  - rewrite Hd, Hn. destruct (pos j anz) eqn:E, (pos j bnz) eqn:E'; destruct (i =? j) eqn:Eij; try ring;
    apply Nat.eqb_eq in Eij; subst j; congruence.
  - apply pos_None in Ea. apply pos_None in Eb. tauto.
Qed.
End Op.

Lemma ssm_init_ok size M nz d : csr_ok (length nz) M -> StronglySorted lt nz ->
  (forall i, In i nz -> i < size) ->
  ssm_init size M nz d = Some (mkS size nz M d) /\ ssm_ok (mkS size nz M d).
Proof.
  intros HM Hs Hb. unfold ssm_init. rewrite (proj1 HM), Nat.eqb_refl, (unique_id nz Hs).
  split; [reflexivity|]. split; [exact HM|]. split; assumption.
Qed.

Lemma op_spec sg A B : ssm_ok A -> ssm_ok B -> s_size B = s_size A ->
  exists C, stoch_mat_op sg A B = Some C /\ ssm_ok C /\ s_size C = s_size A /\
    s_nz C = unique (s_nz A ++ s_nz B) /\ s_diag C = (s_diag A + sg * s_diag B)%num /\
    forall i j, rep C i j = (rep A i j + sg * rep B i j)%num.
Proof.
  intros HA HB Hsz. unfold stoch_mat_op.
  destruct (col_map_spec (s_nz A) (unique (s_nz A ++ s_nz B)) 0) as (amap & Ea & Hla & Hka);
    [apply HA|apply unique_sorted|apply anz_incl|].
  destruct (col_map_spec (s_nz B) (unique (s_nz A ++ s_nz B)) 0) as (bmap & Eb & Hlb & Hkb);
    [apply HB|apply unique_sorted|apply bnz_incl|].
  rewrite Ea, Eb.
  assert (Ha : length amap = length (s_nz A) /\ forall k, k < length (s_nz A) ->
     exists p, pos (nth k (s_nz A) 0) (unique (s_nz A ++ s_nz B)) = Some p /\ nth k amap 0 = p).
  { split; [exact Hla|]. intros k Hk. destruct (Hka k Hk) as (p & ? & ?). exists p. split; [assumption|lia]. }
  assert (Hb : length bmap = length (s_nz B) /\ forall k, k < length (s_nz B) ->
     exists p, pos (nth k (s_nz B) 0) (unique (s_nz A ++ s_nz B)) = Some p /\ nth k bmap 0 = p).
  { split; [exact Hlb|]. intros k Hk. destruct (Hkb k Hk) as (p & ? & ?). exists p. split; [assumption|lia]. }
  destruct (Nat.leb_spec (total (op_rows sg A B amap bmap (unique (s_nz A ++ s_nz B)) 0 0 0 (spa_new (length (unique (s_nz A ++ s_nz B))))))
    (length (c_data (s_small A)) + length (c_data (s_small B)) + length (c_ptr (s_small A)) + length (c_ptr (s_small B)))) as [_|Hgt].
  2:{ pose proof (rows_fit sg A B HA HB amap bmap Ha Hb). lia. }
  assert (Hv := op_value sg A B HA HB amap bmap Ha Hb).
  destruct (rows_spec sg A B HA HB amap bmap Ha Hb) as [Hl Hk].
  set (rows := op_rows _ _ _ _ _ _ _ _ _ _) in *. set (cnz := unique _) in *.
  destruct (ssm_init_ok (s_size A) (of_rows rows) cnz (s_diag A + sg * s_diag B)%num) as [-> Hok].
  - apply csr_ok_of_rows; [exact Hl|]. exact (rows_bound sg A B HA HB amap bmap Ha Hb).
  - apply unique_sorted.
  - intros i Hi. unfold cnz in Hi. rewrite unique_In in Hi. apply in_app_or in Hi. destruct Hi as [Hi|Hi]; [now apply HA|].
    rewrite <- Hsz. now apply HB.
  - eexists. split; [reflexivity|]. split; [exact Hok|]. split; [reflexivity|]. split; [reflexivity|].
    split; [reflexivity|]. exact Hv.
Qed.

(** * Scalar multiples, diagonal shifts, transposition *)
Lemma csr_ok_data n M d : csr_ok n M -> length d = length (c_data M) -> csr_ok n (mkCsr d (c_idx M) (c_ptr M)).
Proof.
  intros (H1 & H2 & H3 & H4 & H5 & H6) Hd. unfold csr_ok. cbn [c_data c_idx c_ptr].
  rewrite Hd. repeat split; assumption.
Qed.
Lemma row_bounds n M i : csr_ok n M -> i < n -> nth i (c_ptr M) 0 <= nth (S i) (c_ptr M) 0 <= length (c_data M).
Proof.
  intros (Hl & H0 & Hmono & Hn & _) Hi. split; [now apply Hmono|]. rewrite <- Hn.
  assert (Hg : forall m, i < m -> m <= n -> nth (S i) (c_ptr M) 0 <= nth m (c_ptr M) 0).
  { induction m as [|m IHm]; intros H1 H2; [lia|].
    destruct (Nat.eq_dec i m) as [->|]; [lia|]. specialize (IHm ltac:(lia) ltac:(lia)).
    specialize (Hmono m ltac:(lia)). lia. }
  apply Hg; lia.
Qed.
Lemma row_entries_map_data n M (h : num -> num) i : csr_ok n M -> i < n ->
  row_entries (mkCsr (map h (c_data M)) (c_idx M) (c_ptr M)) i = map (fun e => (fst e, h (snd e))) (row_entries M i).
Proof.
  intros HM Hi. unfold row_entries, row_range. cbn [c_data c_idx c_ptr]. rewrite map_map.
  apply map_ext_in. intros k Hk. apply in_seq in Hk. cbn [fst snd]. f_equal.
  destruct (row_bounds n M i HM Hi). apply nth_map_dep. lia.
Qed.
Lemma value_map_scal n M x i j : csr_ok n M -> i < n ->
  value (mkCsr (map (fun v => (v * x)%num) (c_data M)) (c_idx M) (c_ptr M)) i j = (value M i j * x)%num.
Proof.
  intros HM Hi. unfold value at 1. rewrite (row_entries_map_data n M _ i HM Hi), sumL_map. cbn [fst snd].
  unfold value. rewrite <- sumL_scal_r. apply sumL_ext. intros e _. destruct (fst e =? j); ring.
Qed.

Lemma mul_spec A x : ssm_ok A ->
  exists C, ssm_mul A x = Some C /\ ssm_ok C /\ s_size C = s_size A /\ s_nz C = s_nz A /\
    s_diag C = (s_diag A * x)%num /\ forall i j, rep C i j = (rep A i j * x)%num.
Proof.
  intros (HM & Hs & Hb). unfold ssm_mul.
  destruct (ssm_init_ok (s_size A) (mkCsr (map (fun v => (v * x)%num) (c_data (s_small A))) (c_idx (s_small A)) (c_ptr (s_small A)))
     (s_nz A) (s_diag A * x)%num) as [-> Hok];
    [apply csr_ok_data; [exact HM|apply map_length]|exact Hs|exact Hb|].
  eexists. split; [reflexivity|]. split; [exact Hok|]. repeat (split; [reflexivity|]).
  intros i j. unfold rep. cbn [s_nz s_small s_diag].
  destruct (pos i (s_nz A)) as [a|] eqn:Ea; [|destruct (i =? j); ring].
  destruct (pos j (s_nz A)) as [b|] eqn:Eb; [|destruct (i =? j); ring].
  apply (value_map_scal _ _ _ _ _ HM (pos_lt _ _ _ Ea)).
Qed.

Lemma pos_eqb l i j a b : pos i l = Some a -> pos j l = Some b -> (a =? b) = (i =? j).
Proof.
  intros Ha Hb. destruct (Nat.eqb_spec i j) as [->|Hne].
  - rewrite Ha in Hb. injection Hb as ->. apply Nat.eqb_refl.
  - apply Nat.eqb_neq. intros ->. apply Hne. apply (pos_nth _ _ _ 0) in Ha, Hb. congruence.
Qed.
Lemma eye_rep sp A d diag : scipy_ok sp -> ssm_ok A -> diag = (s_diag A + d)%num ->
  exists C, ssm_init (s_size A) (add_eye sp (s_small A) d) (s_nz A) diag = Some C /\ ssm_ok C /\ s_size C = s_size A /\
    s_nz C = s_nz A /\ s_diag C = diag /\
    forall i j, rep C i j = (rep A i j + if i =? j then d else 0)%num.
Proof.
  intros Hsp (HM & Hs & Hb) ->. destruct (Hsp _ _ HM) as (He & _ & _). destruct (He d) as [HM' Hv].
  destruct (ssm_init_ok (s_size A) (add_eye sp (s_small A) d) (s_nz A) (s_diag A + d)%num HM' Hs Hb) as [-> Hok].
  eexists. split; [reflexivity|]. split; [exact Hok|]. repeat (split; [reflexivity|]).
  intros i j. unfold rep. cbn [s_nz s_small s_diag].
  destruct (pos i (s_nz A)) as [a|] eqn:Ea; [|destruct (i =? j); ring].
  destruct (pos j (s_nz A)) as [b|] eqn:Eb; [|destruct (i =? j); ring].
  rewrite Hv by (eapply pos_lt; eassumption). now rewrite (pos_eqb _ _ _ _ _ Ea Eb).
Qed.
Lemma sub_diag_spec sp A d : scipy_ok sp -> ssm_ok A ->
  exists C, ssm_sub_diag sp A d = Some C /\ ssm_ok C /\ s_size C = s_size A /\ s_nz C = s_nz A /\
    s_diag C = (s_diag A - d)%num /\
    forall i j, rep C i j = (rep A i j - if i =? j then d else 0)%num.
Proof.
  intros Hsp HA. destruct (eye_rep sp A (- d)%num (s_diag A - d)%num Hsp HA ltac:(ring)) as (C & E & Hok & H1 & H2 & H3 & Hv).
  exists C. split; [exact E|]. split; [exact Hok|]. split; [exact H1|]. split; [exact H2|]. split; [exact H3|].
  intros i j. rewrite Hv. destruct (i =? j); ring.
Qed.
Lemma add_diag_spec sp A d : scipy_ok sp -> ssm_ok A ->
  exists C, ssm_add_diag sp A d = Some C /\ ssm_ok C /\ s_size C = s_size A /\
    forall i j, rep C i j = (rep A i j + if i =? j then d else 0)%num.
Proof.
  intros Hsp HA. destruct (eye_rep sp A d (s_diag A + d)%num Hsp HA eq_refl) as (C & E & Hok & H1 & H2 & H3 & Hv).
  exists C. auto.
Qed.
Lemma transpose_spec sp A : scipy_ok sp -> ssm_ok A ->
  exists C, ssm_transpose sp A = Some C /\ ssm_ok C /\ s_size C = s_size A /\
    forall i j, rep C i j = rep A j i.
Proof.
  intros Hsp (HM & Hs & Hb). destruct (Hsp _ _ HM) as (_ & (HM' & Hv) & _). unfold ssm_transpose.
  destruct (ssm_init_ok (s_size A) (transp sp (s_small A)) (s_nz A) (s_diag A) HM' Hs Hb) as [-> Hok].
  eexists. split; [reflexivity|]. split; [exact Hok|]. split; [reflexivity|].
  intros i j. unfold rep. cbn [s_nz s_small s_diag]. rewrite (Nat.eqb_sym j i).
  destruct (pos i (s_nz A)) as [a|] eqn:Ea, (pos j (s_nz A)) as [b|] eqn:Eb; try reflexivity.
  apply Hv; eapply pos_lt; eassumption.
Qed.

(** * Product *)
Lemma sorted_nth_lt l : StronglySorted lt l -> forall i j, i < j -> j < length l -> nth i l 0 < nth j l 0.
Proof.
  intros Hs. induction Hs as [|a l Hs IH Hf]; intros i j Hij Hj; [simpl in Hj; lia|].
  destruct j as [|j]; [lia|]. simpl in Hj. destruct i as [|i]; simpl.
  - rewrite Forall_forall in Hf. apply Hf, nth_In. lia.
  - apply IH; lia.
Qed.
Lemma nth_lt_sorted l : (forall i j, i < j -> j < length l -> nth i l 0 < nth j l 0) -> StronglySorted lt l.
Proof.
  induction l as [|a l IH]; intros H; constructor.
  - apply IH. intros i j Hij Hj. apply (H (S i) (S j)); simpl; lia.
  - apply Forall_forall. intros x Hx. apply (In_nth l x 0) in Hx. destruct Hx as (k & Hk & <-).
    apply (H 0 (S k)); simpl; lia.
Qed.
Lemma col_map_full anz cnz : StronglySorted lt anz -> StronglySorted lt cnz -> incl anz cnz ->
  exists l, col_map anz cnz 0 = Some l /\ length l = length anz /\ StronglySorted lt l /\
    (forall p, In p l -> p < length cnz) /\
    forall p, p < length cnz -> pos p l = pos (nth p cnz 0) anz.
Proof.
  intros Ha Hc Hi. destruct (col_map_spec anz cnz 0 Ha Hc Hi) as (l & E & Hl & Hk).
  exists l. split; [exact E|]. split; [exact Hl|].
  assert (Hs : StronglySorted lt l).
  { apply nth_lt_sorted. intros i j Hij Hj. rewrite Hl in Hj.
    destruct (Hk i ltac:(lia)) as (p & Hp & ->). destruct (Hk j ltac:(lia)) as (q & Hq & ->). simpl.
    assert (Hlt := sorted_nth_lt anz Ha i j Hij Hj).
    destruct (Nat.lt_ge_cases p q) as [|Hge]; [assumption|]. exfalso.
    rewrite <- (pos_nth _ _ _ 0 Hp), <- (pos_nth _ _ _ 0 Hq) in Hlt.
    destruct (Nat.eq_dec p q) as [->|]; [lia|].
    assert (Hpq := sorted_nth_lt cnz Hc q p ltac:(lia) (pos_lt _ _ _ Hp)). lia. }
  split; [exact Hs|]. split.
  - intros p Hp. apply (In_nth l p 0) in Hp. destruct Hp as (k & Hkl & <-). rewrite Hl in Hkl.
    destruct (Hk k Hkl) as (p & Hp & ->). simpl. now apply pos_lt in Hp.
  - intros p Hp. destruct (pos p l) as [k|] eqn:Ek.
    + assert (Hkl := pos_lt _ _ _ Ek). rewrite Hl in Hkl. destruct (Hk k Hkl) as (p' & Hp' & Hn).
      rewrite (pos_nth _ _ _ 0 Ek) in Hn. simpl in Hn. subst p'.
      rewrite (pos_nth _ _ _ 0 Hp'). symmetry. apply pos_of_nth; [now apply sorted_NoDup|exact Hkl].
    + destruct (pos (nth p cnz 0) anz) as [k|] eqn:E2; [|reflexivity]. exfalso.
      assert (Hkl := pos_lt _ _ _ E2). destruct (Hk k Hkl) as (p' & Hp' & Hn).
      rewrite (pos_nth _ _ _ 0 E2) in Hp'. rewrite pos_of_nth in Hp' by (try apply sorted_NoDup; assumption).
      injection Hp' as <-. simpl in Hn. apply pos_None in Ek. apply Ek. rewrite <- Hn. apply nth_In. lia.
Qed.

(** A - aI restricted to the rows and columns of [cnz] *)
Definition off (A : ssm) (i j : nat) : num := (rep A i j - if i =? j then s_diag A else 0)%num.
Lemma off_row A i j : ~ In i (s_nz A) -> off A i j = 0%num.
Proof. intros H. apply pos_None in H. unfold off, rep. rewrite H. destruct (i =? j); ring. Qed.
Lemma off_col A i j : ~ In j (s_nz A) -> off A i j = 0%num.
Proof.
  intros H. apply pos_None in H. unfold off, rep. rewrite H.
  destruct (pos i (s_nz A)); destruct (i =? j); ring.
Qed.
Lemma restricted sp A cnz : scipy_ok sp -> ssm_ok A -> StronglySorted lt cnz -> incl (s_nz A) cnz ->
  exists amap AmI F, col_map (s_nz A) cnz 0 = Some amap /\
    ssm_init (length cnz) (add_eye sp (s_small A) (- s_diag A)%num) amap 0%num = Some AmI /\
    to_full_mat AmI = Some F /\ csr_ok (length cnz) F /\
    forall p q, p < length cnz -> q < length cnz -> value F p q = off A (nth p cnz 0) (nth q cnz 0).
Proof.
  intros Hsp (HM & Hs & Hb) Hc Hi.
  destruct (col_map_full (s_nz A) cnz Hs Hc Hi) as (amap & Ea & Hla & Hsa & Hba & Hpa).
  destruct (Hsp _ _ HM) as (He & _ & _). destruct (He (- s_diag A)%num) as [HM' Hv].
  rewrite <- Hla in HM'.
  destruct (ssm_init_ok (length cnz) (add_eye sp (s_small A) (- s_diag A)%num) amap 0%num HM' Hsa Hba) as [Ei Hok].
  destruct (to_full_spec _ Hok) as (F & EF & HF & HvF). cbn [s_size] in HF, HvF.
  exists amap. eexists. exists F. split; [exact Ea|]. split; [exact Ei|]. split; [exact EF|]. split; [exact HF|].
  intros p q Hp Hq. rewrite (HvF p q Hp Hq). unfold off, rep. cbn [s_nz s_small s_diag].
  rewrite !Hpa by assumption.
  assert (Epq : (p =? q) = (nth p cnz 0 =? nth q cnz 0)).
  { symmetry. destruct (Nat.eqb_spec p q) as [->|Hne]; [apply Nat.eqb_refl|]. apply Nat.eqb_neq. intros Hx.
    apply Hne. apply (proj1 (NoDup_nth cnz 0)) with (1 := sorted_NoDup _ Hc); assumption. }
  rewrite <- Epq.
  destruct (pos (nth p cnz 0) (s_nz A)) as [a|] eqn:E1, (pos (nth q cnz 0) (s_nz A)) as [b|] eqn:E2;
    try (destruct (p =? q); ring).
  rewrite Hv by (eapply pos_lt; eassumption). rewrite (pos_eqb _ _ _ _ _ E1 E2), <- Epq.
  destruct (p =? q); ring.
Qed.

Lemma matmul_spec sp A B : scipy_ok sp -> ssm_ok A -> ssm_ok B -> s_size B = s_size A ->
  exists C, ssm_matmul sp A B = Some C /\ ssm_ok C /\ s_size C = s_size A /\
    forall i j, i < s_size A -> j < s_size A ->
      rep C i j = sumN (s_size A) (fun k => (rep A i k * rep B k j)%num).
Proof.
  intros Hsp HA HB Hsz. unfold ssm_matmul.
  set (a := s_diag A). set (b := s_diag B). set (n := s_size A).
  assert (HaB : exists aB, (if qeqb a 1%num then Some B else ssm_mul B a) = Some aB /\ ssm_ok aB /\ s_size aB = n /\
      s_nz aB = s_nz B /\ s_diag aB = (b * a)%num /\ forall i j, rep aB i j = (rep B i j * a)%num).
  { destruct (qeqb_spec a 1%num) as [->|].
    - exists B. split; [reflexivity|]. split; [exact HB|]. split; [exact Hsz|]. split; [reflexivity|].
      split; [unfold b; ring|]. intros. ring.
    - destruct (mul_spec B a HB) as (C & H1 & H2 & H3 & H4 & H5 & H6). exists C.
      split; [exact H1|]. split; [exact H2|]. split; [unfold n; congruence|]. auto. }
  destruct HaB as (aB & EaB & HokaB & HszaB & HnzaB & HdaB & HvaB). rewrite EaB. cbn [obind].
  assert (HbA : exists bA, (if qeqb b 1%num then Some A else ssm_mul A b) = Some bA /\ ssm_ok bA /\ s_size bA = n /\
      s_nz bA = s_nz A /\ s_diag bA = (a * b)%num /\ forall i j, rep bA i j = (rep A i j * b)%num).
  { destruct (qeqb_spec b 1%num) as [->|].
    - exists A. split; [reflexivity|]. split; [exact HA|]. split; [reflexivity|]. split; [reflexivity|].
      split; [unfold a; ring|]. intros. ring.
    - destruct (mul_spec A b HA) as (C & H1 & H2 & H3 & H4 & H5 & H6). exists C.
      split; [exact H1|]. split; [exact H2|]. split; [exact H3|]. auto. }
  destruct HbA as (bA & EbA & HokbA & HszbA & HnzbA & HdbA & HvbA). rewrite EbA. cbn [obind].
  destruct (op_spec 1%num bA aB HokbA HokaB ltac:(congruence)) as (sum & Es & Hoks & Hszs & Hnzs & Hds & Hvs).
  unfold ssm_add at 1. rewrite Es. cbn [obind].
  destruct (sub_diag_spec sp sum (a * b)%num Hsp Hoks) as (rest & Er & Hokr & Hszr & Hnzr & Hdr & Hvr).
  rewrite Er. cbn [obind].
  (* the algebra *)
  assert (Halg : forall i j, i < n -> j < n ->
     sumN n (fun k => (rep A i k * rep B k j)%num) = (sumN n (fun k => (off A i k * off B k j)%num) + rep rest i j)%num).
  { intros i j Hi Hj. rewrite Hvr, Hvs, HvbA, HvaB.
    rewrite (sumN_ext n (fun k => (rep A i k * rep B k j)%num)
      (fun k => (off A i k * off B k j + ((if k =? j then rep A i k * b else 0) + (if k =? i then a * rep B k j else 0)
                 - (if k =? i then (if k =? j then a * b else 0) else 0)))%num)).
    - unfold sumN. rewrite sumL_add. f_equal. rewrite sumL_sub, sumL_add.
      fold (sumN n (fun k => if k =? j then (rep A i k * b)%num else 0%num)).
      fold (sumN n (fun k => if k =? i then (a * rep B k j)%num else 0%num)).
      fold (sumN n (fun k => if k =? i then (if k =? j then a * b else 0)%num else 0%num)).
      rewrite (sumN_delta n j (fun k => (rep A i k * b)%num) Hj).
      rewrite (sumN_delta n i (fun k => (a * rep B k j)%num) Hi).
      rewrite (sumN_delta n i (fun k => if k =? j then (a * b)%num else 0%num) Hi).
      destruct (i =? j); ring.
    - intros k Hk. unfold off. fold a b. rewrite (Nat.eqb_sym i k).
      destruct (k =? i), (k =? j); ring. }
  destruct (filter (fun i => memb i (s_nz B)) (s_nz A)) as [|i0 inter] eqn:Einter.
  - exists rest. split; [reflexivity|]. split; [exact Hokr|]. split; [congruence|].
    intros i j Hi Hj. rewrite (Halg i j Hi Hj), sumN_zero; [ring|]. intros k Hk.
    destruct (in_dec Nat.eq_dec k (s_nz A)) as [Hka|Hka]; [|rewrite off_col by exact Hka; ring].
    rewrite (off_row B k j); [ring|]. intros Hkb.
    assert (Hin : In k (filter (fun i => memb i (s_nz B)) (s_nz A))).
    { apply filter_In. split; [exact Hka|]. rewrite (proj2 (memb_In k (s_nz B)) Hkb). reflexivity. }
    rewrite Einter in Hin. destruct Hin.
  - clear Einter. set (cnz := unique (s_nz A ++ s_nz B)).
    assert (Hc : StronglySorted lt cnz) by apply unique_sorted.
    destruct (restricted sp A cnz Hsp HA Hc (anz_incl A B)) as (amap & AmI & FA & -> & EA & EFA & HFA & HvA).
    destruct (restricted sp B cnz Hsp HB Hc (bnz_incl A B)) as (bmap & BmI & FB & -> & EB & EFB & HFB & HvB).
    cbn [obind]. fold a in EA. fold b in EB. rewrite EA, EB. cbn [obind]. rewrite EFA, EFB. cbn [obind].
    destruct (Hsp _ _ HFA) as (_ & _ & Hmm). destruct (Hmm FB HFB) as [HP HvP].
    destruct (ssm_init_ok n (matmul sp FA FB) cnz 0%num HP Hc) as [-> HokC].
    { intros i Hi. unfold cnz in Hi. rewrite unique_In in Hi. apply in_app_or in Hi.
      destruct Hi as [Hi|Hi]; [now apply HA|unfold n; rewrite <- Hsz; now apply HB]. }
    cbn [obind].
    destruct (op_spec 1%num (mkS n cnz (matmul sp FA FB) 0%num) rest HokC Hokr) as (C & EC & HC & HszC & _ & _ & HvC).
    { cbn [s_size]. congruence. }
    exists C. split; [exact EC|]. split; [exact HC|]. split; [exact HszC|].
    intros i j Hi Hj. rewrite HvC, (Halg i j Hi Hj).
    assert (Hcn := sorted_NoDup _ Hc).
    assert (Hsum : forall f, (forall k, k < n -> ~ In k cnz -> f k = 0%num) ->
              sumN n f = sumN (length cnz) (fun p => f (nth p cnz 0))).
    { intros f Hf. rewrite <- (sumL_nth cnz f 0). unfold sumN.
      rewrite (sumL_ext f (fun k => if memb k cnz then f k else 0%num) (seq 0 n)).
      - rewrite <- sumL_filter. apply sumL_perm. apply NoDup_Permutation; [apply filter_NoDup, seq_NoDup|exact Hcn|].
        intros k. rewrite filter_In, seq_In_iff, memb_In. split; [tauto|]. intros Hk. split; [|exact Hk].
        destruct HokC as (_ & _ & Hbc). now apply Hbc.
      - intros k Hk. apply seq_In_iff in Hk. destruct (memb_spec k cnz); [reflexivity|]. now apply Hf. }
    rewrite (Hsum (fun k => (off A i k * off B k j)%num)).
    2:{ intros k Hk Hn. rewrite (off_col A i k); [ring|]. intros H. apply Hn. now apply (anz_incl A B). }
    assert (HCm : rep (mkS n cnz (matmul sp FA FB) 0%num) i j =
              sumN (length cnz) (fun p => (off A i (nth p cnz 0%nat) * off B (nth p cnz 0%nat) j)%num)).
    { unfold rep. cbn [s_nz s_small s_diag].
      destruct (pos i cnz) as [p|] eqn:Ei.
      2:{ rewrite sumN_zero; [destruct (i =? j); reflexivity|]. intros k _. rewrite (off_row A i); [ring|].
          apply pos_None in Ei. intros H. apply Ei. now apply (anz_incl A B). }
      destruct (pos j cnz) as [q|] eqn:Ej.
      2:{ rewrite sumN_zero; [destruct (i =? j); reflexivity|]. intros k _.
          rewrite (off_col B); [ring|].
          apply pos_None in Ej. intros H. apply Ej. now apply (bnz_incl A B). }
      assert (Hp := pos_lt _ _ _ Ei). assert (Hq := pos_lt _ _ _ Ej).
      rewrite HvP by assumption. apply sumN_ext. intros k Hk. rewrite HvA, HvB by assumption.
      now rewrite (pos_nth _ _ _ 0 Ei), (pos_nth _ _ _ 0 Ej). }
    rewrite HCm. ring.
Qed.
