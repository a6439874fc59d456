(** Lemmas on the grid and the tasks. *)
From Verif Require Import Base LouvainModel SparseModel EventsModel EventsSpec TransModel TransSpec MatProofs FlowModel FlowSpec FlowProofs CovModel CovSpec CovProofs.
Local Open Scope bool_scope.

(** ** Stops *)
Lemma nth_skip {A} (l : list A) d : forall i k, nth k (skipn i l) d = nth (i + k) l d.
Proof. induction l as [|a l IH]; intros [|i] k; try reflexivity; cbn; [now destruct k|apply IH]. Qed.
Lemma nth_first {A} (l : list A) d : forall i k, k < i -> nth k (firstn i l) d = nth k l d.
Proof. induction l as [|a l IH]; intros [|i] [|k] H; try reflexivity; try lia. cbn. apply IH. lia. Qed.
Lemma in_line_intro back sts : forall a, (forall k, k < length sts -> ahead back (match k with 0 => a | S k' => nth k' sts 0 end) (nth k sts 0)) -> in_line back a sts.
Proof.
  induction sts as [|b sts IH]; intros a H; [exact I|]. split; [apply (H 0); cbn; lia|]. apply IH. intros k Hk. specialize (H (S k)). cbn [length nth] in H. specialize (H ltac:(lia)). exact H.
Qed.
Definition strictly (back : bool) (a b : nat) : Prop := if back then b < a else a < b.
(** the points of the grid on the way, nearest first *)
Definition onward (back : bool) (inds : list nat) (i : nat) : list nat := if back then rev (firstn i inds) else skipn (S i) inds.
Lemma onward_nth back inds i k : i < length inds -> k < length (onward back inds i) ->
  exists j, nth k (onward back inds i) 0 = nth j inds 0 /\ j < length inds /\ (if back then j + S k = i else j = i + S k).
Proof.
  unfold onward. intros Hi Hk. destruct back.
  - rewrite rev_length, firstn_length in Hk. exists (i - S k). split; [|lia]. rewrite rev_nth by (rewrite firstn_length; lia). rewrite firstn_length, nth_first by lia. f_equal. lia.
  - rewrite skipn_length in Hk. exists (i + S k). split; [|lia]. rewrite nth_skip. f_equal. lia.
Qed.
Lemma onward_length back inds i : i < length inds -> length (onward back inds i) = if back then i else length inds - S i.
Proof. intros H. unfold onward. destruct back; [rewrite rev_length, firstn_length; lia|apply skipn_length]. Qed.
Lemma onward_line back inds i : increasing_nat inds -> i < length inds -> in_line back (nth i inds 0) (onward back inds i).
Proof.
  intros HI Hi. apply in_line_intro. intros k Hk. destruct (onward_nth back inds i k Hi Hk) as (j & -> & Hj & Ej). destruct k as [|k].
  - unfold ahead. destruct back; apply Nat.lt_le_incl, HI; lia.
  - destruct (onward_nth back inds i k Hi ltac:(lia)) as (j' & -> & Hj' & Ej'). unfold ahead. destruct back; apply Nat.lt_le_incl, HI; lia.
Qed.
Lemma onward_iff back inds i b : increasing_nat inds -> i < length inds -> In b (onward back inds i) <-> In b inds /\ strictly back (nth i inds 0) b.
Proof.
  intros HI Hi. split.
  - intros H. apply In_nth with (d := 0) in H. destruct H as (k & Hk & <-). destruct (onward_nth back inds i k Hi Hk) as (j & -> & Hj & Ej). split; [now apply nth_In|].
    unfold strictly. destruct back; apply HI; lia.
  - intros [H HS]. apply In_nth with (d := 0) in H. destruct H as (j & Hj & <-). unfold strictly in HS.
    assert (HL := onward_length back inds i Hi). destruct back.
    + assert (Hij : j < i). { destruct (Nat.lt_trichotomy i j) as [H|[->|H]]; [specialize (HI i j H Hj); lia|lia|exact H]. }
      destruct (onward_nth true inds i (i - S j) Hi ltac:(lia)) as (j' & E & _ & Ej). replace j with j' by lia. rewrite <- E. apply nth_In. lia.
    + assert (Hij : i < j). { destruct (Nat.lt_trichotomy i j) as [H|[->|H]]; [exact H|lia|specialize (HI j i H Hi); lia]. }
      destruct (onward_nth false inds i (j - S i) Hi ltac:(lia)) as (j' & E & _ & Ej). replace j with j' by lia. rewrite <- E. apply nth_In. lia.
Qed.
Lemma onward_NoDup back inds i : increasing_nat inds -> i < length inds -> NoDup (onward back inds i).
Proof.
  intros HI Hi. apply NoDup_nth with (d := 0). intros k k' Hk Hk' E. destruct (onward_nth back inds i k Hi Hk) as (j & Ej & Hj & Pj). destruct (onward_nth back inds i k' Hi Hk') as (j' & Ej' & Hj' & Pj').
  rewrite Ej, Ej' in E. assert (j = j'); [|destruct back; lia]. destruct (Nat.lt_trichotomy j j') as [H|[H|H]]; [specialize (HI j j' H Hj'); lia|exact H|specialize (HI j' j H Hj); lia].
Qed.

(** ** Tasks of [main] *)
Definition proper_task (inds : list nat) (t : nat * bool) : Prop := fst t < length inds /\ (snd t = true -> 0 < fst t) \/ (length inds = 1 /\ t = (0, true)).
Lemma task_proper sel dir inds t : inds <> [] -> In t (tasks sel dir inds) -> proper_task inds t.
Proof.
  intros HN H. assert (HL : 0 < length inds) by (destruct inds; [congruence|cbn; lia]). unfold proper_task. destruct sel; cbn in H.
  - destruct H as [<-|[]]. left. cbn. split; [lia|discriminate].
  - destruct H as [<-|[]]. cbn. destruct (Nat.eq_dec (length inds) 1) as [E|E]; [right; rewrite E; auto|left; lia].
  - apply in_map_iff in H. destruct H as (r & <- & _). destruct r; cbn.
    + destruct (Nat.eq_dec (length inds) 1) as [E|E]; [right; rewrite E; auto|left; lia].
    + left. split; [lia|discriminate].
  - apply in_flat_map in H. destruct H as (r & _ & H). apply in_map_iff in H. destruct H as (i & <- & H). left. cbn. destruct r; apply in_seq in H; split; lia || discriminate.
Qed.
Definition limited {A} (one : bool) (l : list A) : list A := if one then firstn 1 l else l.
Lemma limited_incl {A} one (l : list A) : incl (limited one l) l.
Proof. intros x H. destruct one; [|exact H]. destruct l; cbn in *; [contradiction|]. destruct H as [->|[]]. now left. Qed.
Lemma task_stops_some o inds t : fst t < length inds -> (snd t = true -> 0 < fst t) ->
  task_stops o inds t = (if only_one o then match onward (snd t) inds (fst t) with [] => None | _ => Some (nth (fst t) inds 0, limited true (onward (snd t) inds (fst t))) end
                         else Some (nth (fst t) inds 0, onward (snd t) inds (fst t))).
Proof.
  intros H1 H2. unfold task_stops. rewrite (nth_error_nth' inds 0 H1). unfold stops, onward, limited. destruct t as [i []]; cbn [fst snd] in *.
  - specialize (H2 eq_refl). destruct i as [|i]; [lia|]. destruct (only_one o); [|reflexivity]. now destruct (rev (firstn (S i) inds)).
  - destruct (only_one o); [|reflexivity]. now destruct (skipn (S i) inds).
Qed.
Lemma task_line o inds t a sts : increasing_nat inds -> proper_task inds t -> task_stops o inds t = Some (a, sts) ->
  in_line (snd t) a sts /\ In a inds /\ incl sts inds.
Proof.
  intros HI HP H. destruct HP as [[H1 H2]|[HL ->]].
  - rewrite task_stops_some in H by assumption. assert (HA : In (nth (fst t) inds 0) inds) by (now apply nth_In).
    assert (HO := onward_line (snd t) inds (fst t) HI H1). assert (HC : incl (onward (snd t) inds (fst t)) inds) by (intros b Hb; now apply onward_iff in Hb).
    destruct (only_one o).
    + destruct (onward (snd t) inds (fst t)) as [|b l]; [discriminate|]. injection H as <- <-. cbn. split; [split; [apply HO|exact I]|]. split; [exact HA|]. intros x [<-|[]]. apply HC. now left.
    + injection H as <- <-. auto.
  - destruct inds as [|x [|y l]]; cbn in HL; try lia. cbn in H. destruct (only_one o); injection H as <- <-; cbn; (split; [split; [lia|exact I]|]); (split; [now left|]); intros z Hz; exact Hz.
Qed.
Lemma before_end_max inds a b k : In a inds -> In b inds -> k < max a b -> before_end inds k.
Proof. intros Ha Hb Hk. destruct (Nat.max_spec a b) as [[_ E]|[_ E]]; rewrite E in Hk; [exists b|exists a]; auto. Qed.

(** ** Runs of tasks *)
Section Tasks.
Context (n : nat) (tol : num) (Hn : 0 < n) (Ht0 : (0 <= tol)%num) (Ht1 : (tol * qn n < 1)%num).
Context (inter : method -> nat -> option slice) (trans : method -> bool -> nat -> option (mat * num)).
Context (Hslices : all_slices_ok n inter) (Htrans : trans_ok n inter trans) (inds : list nat) (Hinds : increasing_nat inds).
Lemma run_task_ok mkl (must : Prop) o sel dir t d : right_disk n tol inter d -> In t (tasks sel dir inds) ->
  (must -> task_stops o inds t <> None) -> (must -> inter_there inter o inds) ->
  (must -> (forall m b, d_int d m (nth (fst t) inds 0) b = None) \/ (use_expm o <> use_lin o /\ trans_there trans o inds (snd t))) ->
  triple n tol inter must d (run_task n tol None mkl inter trans o inds t) (fun _ d' => forall a sts, task_stops o inds t = Some (a, sts) -> complete inter o a sts d').
Proof.
  intros Hd Ht Hs Hi Hm. unfold run_task. destruct (task_stops o inds t) as [[a sts]|] eqn:E; [|apply triple_fail; intros HM; exact (Hs HM eq_refl)].
  assert (HN : inds <> []) by (intros ->; unfold task_stops in E; destruct (fst t); discriminate E).
  assert (HP := task_proper sel dir inds t HN Ht). destruct (task_line o inds t a sts Hinds HP E) as (HL & Ha & HS).
  assert (Ea : nth (fst t) inds 0 = a). { unfold task_stops in E. destruct (nth_error inds (fst t)) as [z|] eqn:Ez; [|discriminate]. destruct (stops _ _ _ _); [|discriminate]. injection E as <- _. now apply nth_error_nth. }
  apply (triple_weaken n tol inter must d _ (fun _ d' => complete inter o a sts d')).
  { intros _ d' HC a' sts' E'. injection E' as <- <-. exact HC. }
  apply worker_ok; try assumption.
  - intros HM. destruct (Hm HM) as [HE|[HE HT]]; [left; rewrite <- Ea; exact HE|right]. split; [exact HE|]. intros m b k Hu Hb Hk. apply HT; [exact Hu|]. apply (before_end_max inds a b); auto.
  - intros HM m b k Hu Hb Hk. apply (Hi HM); [exact Hu|]. apply (before_end_max inds a b); auto.
Qed.
Lemma history_right d : history n tol inter trans inds d -> right_disk n tol inter d.
Proof.
  intros H. induction H as [|d sel dir t o mkl q H IH Ht]; [apply right_empty|].
  apply right_puts; [exact IH|]. assert (HT := run_task_ok mkl False o sel dir t d IH Ht). specialize (HT ltac:(tauto) ltac:(tauto) ltac:(tauto)). destruct HT as [HW _].
  revert HW. generalize (fst (run_task n tol None mkl inter trans o inds t d)). intros l HW. apply Forall_forall. intros w Hw. rewrite Forall_forall in HW. apply HW.
  rewrite <- (firstn_skipn q l). apply in_or_app. now left.
Qed.
End Tasks.

(** ** What the tasks integrate *)
Lemma in_tasks sel dir inds t : In t (tasks sel dir inds) <->
  match sel with
  | FromStart => t = (0, false)
  | FromFinish => t = (length inds - 1, true)
  | StartAndFinish => In (snd t) (rev_time_list dir) /\ fst t = (if snd t then length inds - 1 else 0)
  | EveryStart => In (snd t) (rev_time_list dir) /\ (if snd t then 1 <= fst t < length inds else fst t < length inds - 1)
  end.
Proof.
  destruct sel; cbn [tasks].
  - cbn. split; [intros [<-|[]]; reflexivity|intros ->; now left].
  - cbn. split; [intros [<-|[]]; reflexivity|intros ->; now left].
  - split.
    + intros H. apply in_map_iff in H. destruct H as (r & <- & Hr). auto.
    + intros [Hr E]. apply in_map_iff. exists (snd t). split; [rewrite <- E; now destruct t|exact Hr].
  - split.
    + intros H. apply in_flat_map in H. destruct H as (r & Hr & H). apply in_map_iff in H. destruct H as (i & <- & H). cbn. split; [exact Hr|]. destruct r; apply in_seq in H; lia.
    + intros [Hr E]. apply in_flat_map. exists (snd t). split; [exact Hr|]. apply in_map_iff. exists (fst t). split; [now destruct t|]. destruct (snd t); apply in_seq; lia.
Qed.
Lemma NoDup_map_inj {A B} (f : A -> B) l : (forall x y, In x l -> In y l -> f x = f y -> x = y) -> NoDup l -> NoDup (map f l).
Proof.
  intros H HN. induction HN as [|a l Ha HN IH]; cbn; constructor.
  - intros HI. apply in_map_iff in HI. destruct HI as (x & E & Hx). apply Ha. replace a with x; [exact Hx|]. apply H; [now right|now left|exact E].
  - apply IH. intros x y Hx Hy. apply H; now right.
Qed.
Lemma NoDup_flat_map {A B} (f : A -> list B) l : NoDup l -> (forall x, In x l -> NoDup (f x)) ->
  (forall x y b, In x l -> In y l -> In b (f x) -> In b (f y) -> x = y) -> NoDup (flat_map f l).
Proof.
  intros HN HF HD. induction HN as [|a l Ha HN IH]; [constructor|]. cbn.
  assert (HA := HF a (or_introl eq_refl)). assert (HT : NoDup (flat_map f l)) by (apply IH; [intros; apply HF; now right|intros x y b Hx Hy; apply HD; now right]).
  assert (HX : forall b, In b (f a) -> ~ In b (flat_map f l)).
  { intros b Hb Hb'. apply in_flat_map in Hb'. destruct Hb' as (y & Hy & Hb'). apply Ha. rewrite (HD a y b (or_introl eq_refl) (or_intror Hy) Hb Hb'). exact Hy. }
  clear IH HF HD Ha. induction (f a) as [|b m IHm]; [exact HT|]. cbn. inversion HA as [|? ? Hb HA']; subst. constructor.
  - intros H. apply in_app_or in H. destruct H as [H|H]; [contradiction|]. now apply (HX b (or_introl eq_refl)).
  - apply IHm; [exact HA'|]. intros c Hc. apply HX. now right.
Qed.
Lemma tasks_NoDup sel dir inds : NoDup (tasks sel dir inds).
Proof.
  destruct sel; cbn [tasks].
  - repeat constructor. intros [].
  - repeat constructor. intros [].
  - apply NoDup_map_inj; [|destruct dir; repeat constructor; cbn; intuition discriminate]. intros x y _ _ E. now injection E.
  - apply NoDup_flat_map; [destruct dir; repeat constructor; cbn; intuition discriminate| |].
    + intros r _. apply NoDup_map_inj; [intros x y _ _ E; now injection E|]. destruct r; apply seq_NoDup.
    + intros x y b _ _ Hx Hy. apply in_map_iff in Hx, Hy. destruct Hx as (i & <- & _), Hy as (j & E & _). now injection E.
Qed.
Lemma rev_list_dir dir r : In r (rev_time_list dir) <-> match dir with Forward => r = false | Backward => r = true | Both => True end.
Proof. destruct dir, r; cbn; intuition discriminate. Qed.
Lemma first_point inds j : increasing_nat inds -> j < length inds -> nth 0 inds 0 <= nth j inds 0.
Proof. intros HI Hj. destruct j as [|j]; [lia|]. apply Nat.lt_le_incl, HI; lia. Qed.
Lemma last_point inds j : increasing_nat inds -> j < length inds -> nth j inds 0 <= nth (length inds - 1) inds 0.
Proof. intros HI Hj. destruct (Nat.eq_dec j (length inds - 1)) as [->|N]; [lia|]. apply Nat.lt_le_incl, HI; lia. Qed.
Lemma index_inj inds i j : increasing_nat inds -> i < length inds -> j < length inds -> nth i inds 0 = nth j inds 0 -> i = j.
Proof. intros HI Hi Hj E. destruct (Nat.lt_trichotomy i j) as [H|[H|H]]; [specialize (HI i j H Hj); lia|exact H|specialize (HI j i H Hi); lia]. Qed.
(** the stops of a task, the nearest only with [only_one] *)
Lemma limited_iff one back inds i b : increasing_nat inds -> i < length inds ->
  In b (limited one (onward back inds i)) <-> In b inds /\ strictly back (nth i inds 0) b /\ (one = true -> adjacent inds (nth i inds 0) b).
Proof.
  intros HI Hi. destruct one; cbn [limited].
  - assert (HL := onward_line back inds i HI Hi). assert (HO := fun b => onward_iff back inds i b HI Hi). destruct (onward back inds i) as [|c l] eqn:E.
    + cbn. split; [intros []|]. intros (H1 & H2 & _). now apply (HO b).
    + cbn [firstn]. destruct (proj1 (HO c) (or_introl eq_refl)) as [Hc1 Hc2]. split.
      * intros [<-|[]]. split; [exact Hc1|]. split; [exact Hc2|]. intros _ e He HX.
        assert (Hin : In e (c :: l)). { apply HO. split; [exact He|]. unfold strictly in *. destruct back; lia. }
        assert (HG : forall l c, in_line back c l -> forall e, In e (c :: l) -> ahead back c e).
        { clear. induction l as [|b l IH]; intros c H e [<-|He]; try apply ahead_refl; [destruct He|]. cbn [in_line] in H. destruct H as [Hb H]. exact (ahead_trans back c b e Hb (IH b H e He)). }
        assert (HH := HG l c (proj2 HL) e Hin). unfold strictly, ahead in *. destruct back; lia.
      * intros (H1 & H2 & H3). left. assert (Hb : In b (c :: l)) by (apply HO; auto). destruct Hb as [Hb|Hb]; [exact Hb|]. exfalso. apply (H3 eq_refl c Hc1).
        assert (HG : NoDup (c :: l)) by (rewrite <- E; now apply onward_NoDup). inversion HG as [|? ? HN _]; subst.
        assert (HA : forall l c, in_line back c l -> forall e, In e l -> ahead back c e).
        { clear. induction l as [|b l IH]; intros c H e He; [destruct He|]. cbn [in_line] in H. destruct H as [Hb H]. destruct He as [<-|He]; [exact Hb|]. exact (ahead_trans back c b e Hb (IH b H e He)). }
        assert (HH := HA l c (proj2 HL) b Hb). assert (b <> c) by (intros ->; contradiction). unfold strictly, ahead in *. destruct back; lia.
  - rewrite onward_iff by assumption. intuition discriminate.
Qed.
Lemma limited_NoDup {A} one (l : list A) : NoDup l -> NoDup (limited one l).
Proof. intros H. destruct one; [|exact H]. destruct l; cbn; repeat constructor. intros []. Qed.
Section Integrated.
Context (o : options) (sel : selection) (dir : directions) (inds : list nat) (HI : increasing_nat inds) (H2 : 2 <= length inds).
Lemma task_index t : In t (tasks sel dir inds) -> fst t < length inds /\ (snd t = true -> 0 < fst t).
Proof.
  intros H. destruct (task_proper sel dir inds t) as [HP|[HP _]]; [intros ->; cbn in H2; lia|exact H|exact HP|lia].
Qed.
Lemma task_pairs t a b : In t (tasks sel dir inds) ->
  (In (a, b) (match task_stops o inds t with Some (a, sts) => map (pair a) sts | None => [] end) <->
   a = nth (fst t) inds 0 /\ In b (limited (only_one o) (onward (snd t) inds (fst t)))).
Proof.
  intros Ht. destruct (task_index t Ht) as [Hi Hb]. rewrite task_stops_some by assumption.
  assert (HM : forall l, In (a, b) (map (pair (nth (fst t) inds 0)) l) <-> a = nth (fst t) inds 0 /\ In b l).
  { intros l. rewrite in_map_iff. split; [intros (x & E & Hx); injection E as <- <-; auto|intros [-> Hin]; exists b; auto]. }
  destruct (only_one o); [|apply HM]. destruct (onward (snd t) inds (fst t)) as [|c l] eqn:E; [cbn; tauto|]. apply HM.
Qed.
Lemma tasks_run t : In t (tasks sel dir inds) -> task_stops o inds t <> None.
Proof.
  intros Ht. destruct (task_index t Ht) as [Hi Hb]. rewrite task_stops_some by assumption. destruct (only_one o); [|discriminate].
  assert (HL := onward_length (snd t) inds (fst t) Hi). destruct (onward (snd t) inds (fst t)); [|discriminate]. exfalso. cbn in HL.
  apply in_tasks in Ht. destruct sel; try (subst t; cbn in *; lia).
  - destruct Ht as [_ E]. destruct t as [i []]; cbn in *; lia.
  - destruct Ht as [_ E]. destruct t as [i []]; cbn in *; lia.
Qed.
Lemma integrated_NoDup : NoDup (integrated o inds (tasks sel dir inds)).
Proof.
  apply NoDup_flat_map; [apply tasks_NoDup| |].
  - intros t Ht. destruct (task_index t Ht) as [Hi Hb]. rewrite task_stops_some by assumption. assert (HN := onward_NoDup (snd t) inds (fst t) HI Hi).
    destruct (only_one o).
    + destruct (onward (snd t) inds (fst t)) as [|c l]; [constructor|]. cbn. repeat constructor. intros [].
    + apply NoDup_map_inj; [intros x y _ _ E; now injection E|exact HN].
  - intros t t' [a b] Ht Ht' H H'. apply task_pairs in H; [|exact Ht]. apply task_pairs in H'; [|exact Ht']. destruct H as [E H], H' as [E' H'].
    destruct (task_index t Ht) as [Hi Hb], (task_index t' Ht') as [Hi' Hb']. apply limited_incl, onward_iff in H; try assumption. apply limited_incl, onward_iff in H'; try assumption.
    assert (Eij := index_inj inds _ _ HI Hi Hi' (eq_trans (eq_sym E) E')). destruct t as [i r], t' as [i' r']; cbn [fst snd] in *. subst i'. f_equal. rewrite E in *. unfold strictly in *. destruct r, r'; try reflexivity; lia.
Qed.
Lemma integrated_wanted a b : In (a, b) (integrated o inds (tasks sel dir inds)) <-> wanted o sel dir inds a b.
Proof.
  assert (HL : length inds - 1 < length inds) by lia. split.
  - intros H. apply in_flat_map in H. destruct H as (t & Ht & H). apply task_pairs in H; [|exact Ht]. destruct H as [-> H]. destruct (task_index t Ht) as [Hi Hb].
    apply limited_iff in H; try assumption. destruct H as (Hin & HS & HO). split; [now apply nth_In|]. split; [exact Hin|]. split; [exact HO|].
    apply in_tasks in Ht. unfold strictly in HS. destruct sel.
    + subst t. cbn in *. split; [reflexivity|lia].
    + subst t. cbn in *. split; [reflexivity|lia].
    + destruct Ht as [Hr E]. apply rev_list_dir in Hr. destruct t as [i []]; cbn in *; subst i; (split; [destruct dir; cbn; try discriminate Hr; lia|]); [right|left]; split; try reflexivity; lia.
    + destruct Ht as [Hr E]. apply rev_list_dir in Hr. destruct t as [i []]; cbn in *; destruct dir; cbn; try discriminate Hr; lia.
  - intros (Ha & Hb & HO & HW). apply In_nth with (d := 0) in Ha. destruct Ha as (i & Hi & <-).
    assert (Hne : nth i inds 0 <> b) by (destruct sel; try apply HW; destruct dir; cbn in HW; lia).
    set (r := b <? nth i inds 0).
    assert (HS : strictly r (nth i inds 0) b) by (unfold strictly, r; destruct (Nat.ltb_spec b (nth i inds 0)); lia).
    assert (Ht : In (i, r) (tasks sel dir inds)).
    { apply in_tasks. destruct (In_nth _ _ 0 Hb) as (j & Hj & Ej). assert (F := first_point inds j HI Hj). assert (L := last_point inds j HI Hj). rewrite Ej in F, L.
      unfold r. destruct sel.
      - destruct HW as [E _]. apply index_inj in E; try assumption; try lia. subst i. f_equal. destruct (Nat.ltb_spec b (nth 0 inds 0)); [lia|reflexivity].
      - destruct HW as [E _]. apply index_inj in E; try assumption; try lia. subst i. f_equal. destruct (Nat.ltb_spec b (nth (length inds - 1) inds 0)); [reflexivity|lia].
      - destruct HW as [HA [[E Hab]|[E Hab]]]; apply index_inj in E; try assumption; try lia; subst i; cbn [fst snd].
        + destruct (Nat.ltb_spec b (nth 0 inds 0)); [lia|]. split; [|reflexivity]. apply rev_list_dir. destruct dir; cbn in HA; try reflexivity; try lia; exact I.
        + destruct (Nat.ltb_spec b (nth (length inds - 1) inds 0)); [|lia]. split; [|reflexivity]. apply rev_list_dir. destruct dir; cbn in HA; try reflexivity; try lia; exact I.
      - cbn [fst snd]. destruct (Nat.ltb_spec b (nth i inds 0)) as [Hlt|Hge].
        + split; [apply rev_list_dir; destruct dir; cbn in HW; try reflexivity; try lia; exact I|]. split; [|exact Hi]. destruct i; [lia|lia].
        + split; [apply rev_list_dir; destruct dir; cbn in HW; try reflexivity; try lia; exact I|]. destruct (Nat.eq_dec i (length inds - 1)) as [->|N]; [lia|lia]. }
    apply in_flat_map. exists (i, r). split; [exact Ht|]. apply task_pairs; [exact Ht|]. cbn [fst snd]. split; [reflexivity|]. apply limited_iff; auto.
Qed.
End Integrated.

(** ** The grid *)
Lemma range_by_spec count k : 0 < k -> exists l, range_by count k = Some l /\ increasing_nat l /\ length l = S (count / k) /\ (forall i, i < length l -> nth i l 0 = i * k) /\ forall b, In b l -> b <= count.
Proof.
  intros Hk. unfold range_by. destruct k as [|k]; [lia|]. eexists. split; [reflexivity|].
  assert (HN : forall i, i < S (count / S k) -> nth i (map (fun i => i * S k) (seq 0 (S (count / S k)))) 0 = i * S k).
  { intros i Hi. exact (eq_trans (map_nth (fun i => i * S k) (seq 0 (S (count / S k))) 0 i) (f_equal (fun i => i * S k) (seq_nth 0 0 Hi))). }
  rewrite map_length, seq_length. split; [|split; [reflexivity|split; [exact HN|]]].
  - intros i j Hij Hj. rewrite map_length, seq_length in Hj. rewrite !HN by lia. nia.
  - intros b Hb. apply in_map_iff in Hb. destruct Hb as (i & <- & Hi). apply in_seq in Hi. assert (HD := Nat.mul_div_le count (S k) ltac:(lia)). nia.
Qed.

(** ** Tasks do not share files *)
Section Local.
Context (n : nat) (tol : num) (rtol : option num) (mkl : bool).
Context (inter : method -> nat -> option slice) (trans : method -> bool -> nat -> option (mat * num)).
Context (back : bool) (a : nat).
Definition own_side (b : nat) : Prop := if back then b <= a else a < b.
Definition own (w : write) : Prop := match w with WInt _ a' b _ _ => a' = a /\ own_side b | WTmp a' b _ _ => a' = a /\ own_side b end.
Definition same_own (d d' : disk) : Prop :=
  (forall m b, own_side b -> d_int d m a b = d_int d' m a b) /\ (forall b, own_side b -> d_tmp d a b = d_tmp d' a b).
Lemma same_put d d' w : same_own d d' -> own w -> same_own (put true d w) (put true d' w).
Proof.
  intros [H1 H2] Hw. destruct w as [m a' b A t|a' b x k]; cbn in Hw; destruct Hw as [-> Hb]; split; cbn [put d_int d_tmp].
  - intros m' b' Hb'. destruct (method_eqb m' m && (a =? a) && (b' =? b)); [reflexivity|now apply H1].
  - exact H2.
  - exact H1.
  - intros b' Hb'. destruct ((a =? a) && (b' =? b)); [reflexivity|now apply H2].
Qed.
Lemma same_puts l : forall d d', same_own d d' -> Forall own l -> same_own (puts d l) (puts d' l).
Proof. induction l as [|w l IH]; intros d d' H HF; [exact H|]. inversion HF; subst. apply IH; [now apply same_put|assumption]. Qed.
Definition local {A} (c : prog A) : Prop := forall d d', same_own d d' -> c d = c d' /\ Forall own (fst (c d)).
Lemma local_ret {A} (x : A) : local (ret x).
Proof. intros d d' _. split; [reflexivity|constructor]. Qed.
Lemma local_fail {A} : local (@fail A).
Proof. intros d d' _. split; [reflexivity|constructor]. Qed.
Lemma local_emit l : Forall own l -> local (emit l).
Proof. intros H d d' _. split; [reflexivity|exact H]. Qed.
Lemma local_bind {A B} (c : prog A) (f : A -> prog B) (P : A -> Prop) : local c -> (forall d x, snd (c d) = Some x -> P x) -> (forall x, P x -> local (f x)) -> local (bind c f).
Proof.
  intros Hc HP Hf d d' H. destruct (Hc d d' H) as [E HO]. unfold bind. rewrite <- E. specialize (HP d). destruct (c d) as [l [x|]]; cbn [fst snd] in *; [|auto].
  assert (Hx := HP x eq_refl). destruct (Hf x Hx _ _ (same_puts l d d' H HO)) as [E' HO']. rewrite <- E'. destruct (f x (puts d l)) as [l' r]. cbn [fst] in *. split; [reflexivity|]. now apply Forall_app.
Qed.
Lemma local_loop {A B} (f : A -> B -> prog A) l : (forall x b, In b l -> local (f x b)) -> forall x, local (loop f l x).
Proof.
  induction l as [|b l IH]; intros H x; [apply local_ret|]. cbn [loop]. apply (local_bind _ _ (fun _ => True)); [apply H; now left|auto|]. intros y _. apply IH. intros z c Hc. apply H. now right.
Qed.
Lemma krange_own from b k : ahead back a from -> In k (krange back from b) -> own_side (k + 1).
Proof.
  unfold ahead, krange, own_side. destruct back; intros Ha H; [apply in_rev in H|]; apply in_seq in H; lia.
Qed.
Lemma interval_local o ce cl xy k : own_side (k + 1) -> local (interval n tol rtol mkl inter o ce cl back a xy k).
Proof.
  intros Hk. unfold interval. apply (local_bind _ _ (fun _ => True)); [|auto|].
  - destruct ce; [|apply local_ret]. intros d d' H. unfold expm_interval. rewrite <- (proj2 H (k + 1) Hk).
    destruct (if save_temp o then d_tmp d a (k + 1) else None) as [[[y last]|]|].
    + destruct (last =? k); [apply (local_ret y d d' H)|apply (local_fail d d' H)].
    + apply (local_fail d d' H).
    + destruct (inter Expm k) as [s|]; [|apply (local_fail d d' H)]. cbv zeta.
      refine (local_bind (emit _) (fun _ => ret _) (fun _ => True) _ _ _ d d' H); [|auto|intros; apply local_ret].
      apply local_emit. destruct (save_temp o && _); [|constructor]. constructor; [|constructor]. split; [reflexivity|exact Hk].
  - intros x _. apply (local_bind _ _ (fun _ => True)); [|auto|intros; apply local_ret]. destruct cl; [|apply local_ret]. unfold lin_interval. destruct (inter Lin k); [apply local_ret|apply local_fail].
Qed.
Lemma integral_local o ce cl st b : own_side b -> ahead back a (fst st) -> local (integral n tol rtol mkl inter o ce cl back a st b).
Proof.
  intros Hb Ha. unfold integral. apply (local_bind _ _ (fun _ => True)); [|auto|].
  - apply local_loop. intros x k Hk. apply interval_local. exact (krange_own _ b k Ha Hk).
  - intros [x y] _. apply (local_bind _ _ (fun _ => True)); [|auto|].
    + apply local_emit. destruct (ce && _); [|constructor]. constructor; [|constructor]. split; [reflexivity|exact Hb].
    + intros [] _. apply (local_bind _ _ (fun _ => True)); [|auto|intros; apply local_ret].
      apply local_emit. destruct (cl && _); [|constructor]. constructor; [|constructor]. split; [reflexivity|exact Hb].
Qed.
Lemma integral_result o ce cl st b d st' : snd (integral n tol rtol mkl inter o ce cl back a st b d) = Some st' -> fst st' = b.
Proof.
  unfold integral, bind, save, emit, ret. destruct (loop _ _ _ d) as [l [[x y]|]]; cbn; [|discriminate]. intros E. injection E as <-. reflexivity.
Qed.
Lemma integrals_local o ce cl sts : (forall b, In b sts -> own_side b) -> forall st, in_line back (fst st) sts -> ahead back a (fst st) -> local (loop (integral n tol rtol mkl inter o ce cl back a) sts st).
Proof.
  induction sts as [|b sts IH]; intros HS st HL Ha; [apply local_ret|]. cbn [loop in_line] in *. destruct HL as [Hb HL].
  apply (local_bind _ _ (fun st' => fst st' = b)).
  - apply integral_local; [apply HS; now left|exact Ha].
  - intros d st' H. exact (integral_result _ _ _ _ _ _ _ H).
  - intros st' E. apply IH; [intros c Hc; apply HS; now right|now rewrite E|rewrite E; exact (ahead_trans back a _ b Ha Hb)].
Qed.
Lemma resume_local o m from sts x : (forall b, In b sts -> own_side b) -> local (resume n tol trans o m back a from sts x).
Proof.
  intros HS d d' H. unfold resume.
  replace (map (exists_int d' m a) sts) with (map (exists_int d m a) sts).
  2:{ apply map_ext_in. intros b Hb. unfold exists_int. now rewrite (proj1 H m b (HS b Hb)). }
  set (q := prefix_len (map (exists_int d m a) sts)). cbv zeta. destruct (Nat.eqb_spec q 0) as [|N0]; [apply (local_ret _ d d' H)|]. destruct (Nat.eqb_spec q (length sts)) as [|N1]; [apply (local_ret _ d d' H)|].
  assert (Hq : q <= length sts) by (unfold q; rewrite <- (map_length (exists_int d m a) sts); apply prefix_len_le).
  assert (Hb : own_side (nth (q - 1) sts 0)) by (apply HS, nth_In; lia). rewrite <- (proj1 H m _ Hb).
  destruct (d_int d m a (nth (q - 1) sts 0)) as [[[A t]|]|]; try apply (local_fail d d' H). destruct (load_trans _ _ _ _ _ _ _ _) as [[T t']|]; [|apply (local_fail d d' H)].
  destruct (Bool.eqb _ _); [apply (local_fail d d' H)|apply (local_ret _ d d' H)].
Qed.
Lemma resume_result o m from sts x d r : in_line back from sts -> ahead back a from -> snd (resume n tol trans o m back a from sts x d) = Some r ->
  ahead back a (fst (fst (snd r))) /\ in_line back (fst (fst (snd r))) (snd (fst (snd r))) /\ incl (snd (fst (snd r))) sts.
Proof.
  intros HL Ha. unfold resume. set (q := prefix_len (map (exists_int d m a) sts)). cbv zeta.
  assert (Hq : q <= length sts) by (unfold q; rewrite <- (map_length (exists_int d m a) sts); apply prefix_len_le).
  destruct (Nat.eqb_spec q 0) as [|N0]; [intros E; injection E as <-; cbn; split; [exact Ha|split; [exact HL|apply incl_refl]]|].
  destruct (Nat.eqb_spec q (length sts)) as [|N1]; [intros E; injection E as <-; cbn; split; [exact Ha|split; [exact HL|apply incl_refl]]|].
  destruct (d_int d m a (nth (q - 1) sts 0)) as [[[A t]|]|]; try discriminate. destruct (load_trans _ _ _ _ _ _ _ _) as [[T t']|]; [|discriminate]. destruct (Bool.eqb _ _); [discriminate|].
  intros E. injection E as <-. cbn. destruct (in_line_nth back sts from (q - 1) HL ltac:(lia)) as [H1 H2]. replace (S (q - 1)) with q in H2 by lia.
  split; [exact (ahead_trans back a _ _ Ha H1)|]. split; [exact H2|]. intros y Hy. rewrite <- (firstn_skipn q sts). apply in_or_app. now right.
Qed.
Lemma worker_local o sts : (forall b, In b sts -> own_side b) -> in_line back a sts -> local (worker n tol rtol mkl inter trans o back a sts).
Proof.
  intros HS HL. unfold worker.
  apply (local_bind _ _ (fun r => ahead back a (fst (fst (snd r))) /\ in_line back (fst (fst (snd r))) (snd (fst (snd r))) /\ incl (snd (fst (snd r))) sts)).
  - destruct (use_expm o); [now apply resume_local|apply local_ret].
  - intros d r. destruct (use_expm o); [apply resume_result; [exact HL|apply ahead_refl]|]. intros E. injection E as <-. cbn. split; [apply ahead_refl|split; [exact HL|apply incl_refl]].
  - intros [b1 [[f1 s1] x]] (A1 & L1 & I1). cbn [fst snd] in *.
    apply (local_bind _ _ (fun r => ahead back a (fst (fst (snd r))) /\ in_line back (fst (fst (snd r))) (snd (fst (snd r))) /\ incl (snd (fst (snd r))) s1)).
    + destruct (use_lin o); [apply resume_local; intros b Hb; apply HS, I1, Hb|apply local_ret].
    + intros d r. destruct (use_lin o); [apply resume_result; assumption|]. intros E. injection E as <-. cbn. split; [exact A1|split; [exact L1|apply incl_refl]].
    + intros [b2 [[f2 s2] y]] (A2 & L2 & I2). cbn [fst snd] in *. destruct (_ || _); [|apply local_ret].
      apply (local_bind _ _ (fun _ => True)); [|auto|intros; apply local_ret]. apply integrals_local; [intros b Hb; apply HS, I1, I2, Hb|exact L2|exact A2].
Qed.
End Local.
Lemma task_own o inds t a sts : increasing_nat inds -> proper_task inds t -> task_stops o inds t = Some (a, sts) -> forall b, In b sts -> own_side (snd t) a b.
Proof.
  intros HI HP H b Hb. destruct HP as [[H1 H2]|[HL ->]].
  - rewrite task_stops_some in H by assumption. assert (HS : a = nth (fst t) inds 0 /\ In b (onward (snd t) inds (fst t))).
    { destruct (only_one o); [|injection H as <- <-; auto]. destruct (onward (snd t) inds (fst t)) as [|c l]; [discriminate|]. injection H as <- <-. split; [reflexivity|]. cbn in Hb. destruct Hb as [<-|[]]. now left. }
    destruct HS as [-> HS]. apply onward_iff in HS; try assumption. destruct HS as [_ HS]. unfold own_side, strictly in *. destruct (snd t); lia.
  - destruct inds as [|x [|y l]]; cbn in HL; try lia. cbn in H. destruct (only_one o); injection H as <- <-; cbn in *; destruct Hb as [<-|[]]; lia.
Qed.
