(** Properties C46, C47 and C84-C89: flow integrals. *)
From Verif Require Import Base LouvainModel SparseModel EventsModel EventsSpec TransModel TransSpec MatProofs TransProps FlowModel FlowSpec FlowProofs FlowGridProofs.

(** * C46: the integrals are covariances *)
Theorem C46_computed : forall n kd TL TI p1 tl g r rtol, given TL TI <> [] -> times_ok tl -> tl <> Some [] ->
  exists F, flow_integral n kd TL TI p1 tl g r rtol = Some F.
Proof.
  intros n kd TL TI p1 tl g r rtol HG Ht Hne.
  assert (ES : exists Ts, source n kd TL TI r = Some Ts /\ Ts <> []).
  { unfold source. destruct TL as [l|]; [now exists l|]. destruct TI as [l|]; [|exfalso; now apply HG]. cbn [given] in HG.
    destruct (list_reverse r l) as [|A l'] eqn:E; [|eexists; split; [reflexivity|discriminate]]. exfalso. apply HG.
    apply length_zero_iff_nil. rewrite <- (list_reverse_length r), E. reflexivity. }
  destruct ES as (Ts & ES & HT). apply (flow_integral_total n kd TL TI p1 tl g r rtol Ts ES HT).
  - apply directed_reverse. now apply times_increasing.
  - intros E. assert (HL : length (the_ts r tl Ts) = 0) by now rewrite E. unfold the_ts in HL. rewrite list_reverse_length in HL. destruct tl as [ts|]; [destruct ts; [congruence|discriminate]|discriminate].
Qed.
(** With the default tolerance, 1e-8, for sparse matrices *)
Definition C46_statement : Prop := forall n kd TL TI p1 tl g r F A, distribution_ok n p1 -> times_ok tl -> all_stochastic n TL TI ->
  flow_integral n kd TL TI p1 tl g r (Some (qf 1 100000000)) = Some F -> In A (f_I F) -> covariance_like n A.
(** node 0 keeps its walkers but for one in 10^9 *)
Definition leaky : mat := fun i j => match i, j with 0, 0 => 1 - qf 1 1000000000 | 0, 1 => qf 1 1000000000 | 1, 1 => 1 | _, _ => 0 end%num.
Lemma leaky_stochastic : stochastic 2 leaky.
Proof.
  split.
  - intros i j Hi Hj. destruct i as [|[|i]], j as [|[|j]]; try lia; vm_compute; discriminate.
  - intros i Hi. destruct i as [|[|i]]; [| |lia]; vm_compute; now apply Qc_is_canon.
Qed.
Lemma only_stochastic n A : stochastic n A -> all_stochastic n None (Some [A]).
Proof. intros H B [<-|[]]. exact H. Qed.
Theorem C46_rounding_refuted : ~ C46_statement.
Proof.
  intros H. set (run := flow_integral 2 (Sparse false) None (Some [leaky]) None None None false (Some (qf 1 100000000))).
  assert (E1 : match run with Some F => (length (f_I F), qeqb (sumN 2 (nth 0 (f_I F) ident 0)) 0%num) | None => (0, true) end = (1, false)) by (vm_compute; reflexivity).
  destruct run as [F|] eqn:ER; [|discriminate E1]. assert (EL : length (f_I F) = 1) by congruence.
  assert (HA : In (nth 0 (f_I F) ident) (f_I F)) by (apply nth_In; lia).
  destruct (H 2 (Sparse false) None (Some [leaky]) None None None false F _ ltac:(cbn; lia) I (only_stochastic 2 leaky leaky_stochastic) ER HA) as (_ & _ & HZ).
  specialize (HZ 0 ltac:(lia)). rewrite HZ in E1. injection E1 as _ E1. vm_compute in E1. discriminate E1.
Qed.
(** What holds: without rounding, that is for numpy arrays and for sparse matrices with rtol
    None or 0, every integral is a covariance; and all are symmetric. *)
Theorem C46_exact_partial : forall n kd TL TI p1 tl g r rtol F A, exact kd rtol -> distribution_ok n p1 -> times_ok tl -> all_stochastic n TL TI ->
  flow_integral n kd TL TI p1 tl g r rtol = Some F -> In A (f_I F) -> covariance_like n A.
Proof.
  intros n kd TL TI p1 tl g r rtol F A He Hp Ht HS HF HA. destruct (flow_stored _ _ _ _ _ _ _ _ _ _ HS HF) as (Ts & kg & tg & ES & HL & Hne & EG & _ & _ & _ & _ & EI).
  rewrite EI in HA. apply in_map_iff in HA. destruct HA as (m & <- & Hm). apply stored_in in Hm. destruct Hm as (_ & H0 & Hm).
  eapply covariance_ext; [apply eqm_sym; now apply integral_at_average|]. apply average_covariance; [now apply distribution_the|].
  intros k Hk. destruct (source_facts n kd TL TI r Ts HS ES) as [_ HK]. unfold steps_in in Hm. destruct (HK k ltac:(lia)) as [H1 H2]. now apply (stochastic_ext n (nth k Ts ident)).
Qed.
Theorem C46_symmetric_partial : forall n kd TL TI p1 tl g r rtol F A, all_stochastic n TL TI ->
  flow_integral n kd TL TI p1 tl g r rtol = Some F -> In A (f_I F) -> symmetric n A.
Proof.
  intros n kd TL TI p1 tl g r rtol F A HS HF HA. destruct (flow_stored _ _ _ _ _ _ _ _ _ _ HS HF) as (Ts & kg & tg & _ & _ & _ & _ & _ & _ & _ & _ & EI).
  rewrite EI in HA. apply in_map_iff in HA. destruct HA as (m & <- & _). apply integral_at_sym.
Qed.

(** * C84: rounding changes little
    With rtol >= 0, sparse matrices with or without MKL: the entries are at most the exact ones,
    and smaller by at most 2 m rtol p_i p_j / min p after m steps. *)
Theorem C84_rounding : forall n mkl TL TI p1 tl g r rtol pmin F D, (0 <= rtol)%num -> distribution_ok n p1 -> times_ok tl -> all_stochastic n TL TI ->
  (0 < pmin)%num -> (forall i, i < n -> (pmin <= the_distribution n p1 i)%num) ->
  flow_integral n (Sparse mkl) TL TI p1 tl g r (Some rtol) = Some F -> flow_integral n Dense TL TI p1 tl g r (Some rtol) = Some D ->
  length (f_I F) = length (f_I D) /\ forall k i j, k < length (f_I F) -> i < n -> j < n ->
    let p := the_distribution n p1 in let d := (nth k (f_I D) ident i j - nth k (f_I F) ident i j)%num in
    (0 <= d /\ d <= qn (steps_in TL TI tl) * ((rtol + rtol) * (p i * p j / pmin)))%num.
Proof.
  intros n mkl TL TI p1 tl g r rtol pmin F D Hr Hp Ht HS Hpos Hmin HF HD.
  destruct (flow_stored _ _ _ _ _ _ _ _ _ _ HS HF) as (Ts & kg & tg & ES & HL & Hne & EG & _ & _ & _ & _ & EI).
  destruct (flow_stored _ _ _ _ _ _ _ _ _ _ HS HD) as (Ts' & kg' & tg' & ES' & HL' & _ & EG' & _ & _ & _ & _ & EI').
  rewrite EG in EG'. injection EG' as <- <-. rewrite EI, EI', !map_length. split; [reflexivity|]. intros k i j Hk Hi Hj p d.
  set (f := integral_at n (Sparse mkl) (Some rtol) (the_distribution n p1) Ts (flow_times TL TI tl r)) in *. set (f' := integral_at n Dense (Some rtol) (the_distribution n p1) Ts' (flow_times TL TI tl r)) in *.
  set (m := nth k (stored kg 0 (steps_in TL TI tl)) 0). assert (Hm : In m (stored kg 0 (steps_in TL TI tl))) by now apply nth_In.
  apply stored_in in Hm. destruct Hm as (_ & H0 & Hm).
  assert (E : nth k (map f (stored kg 0 (steps_in TL TI tl))) ident = f m). { rewrite (nth_indep _ ident (f 0)) by now rewrite map_length. apply map_nth. }
  assert (E' : nth k (map f' (stored kg 0 (steps_in TL TI tl))) ident = f' m). { rewrite (nth_indep _ ident (f' 0)) by now rewrite map_length. apply map_nth. }
  subst d. rewrite E, E'. assert (ED : f' m i j = flow_average n TL TI p1 tl r m i j) by (apply integral_at_average; try assumption; now left). rewrite ED.
  destruct (integral_at_rounded n mkl TL TI p1 tl r rtol Ts m pmin Hr Hp Ht HS Hpos Hmin ES H0 Hm i j Hi Hj) as [H1 H2]. fold p f in H1, H2.
  split; [exact H1|]. eapply Qcle_trans; [exact H2|].
  assert (Hc : (0 <= (rtol + rtol) * (p i * p j / pmin))%num).
  { assert (HP := distribution_the n p1 Hp). fold p in HP. apply qmult_nonneg; [revert Hr; clear; qlra|]. apply qdiv_nonneg; [apply qmult_nonneg; now apply HP|exact Hpos]. }
  assert (Hq := qn_le _ _ Hm). revert Hc Hq. generalize ((rtol + rtol) * (p i * p j / pmin))%num (qn m) (qn (steps_in TL TI tl)). clear. intros c a b Hc Hq.
  assert (H3 : (0 <= (b - a) * c)%num) by (apply qmult_nonneg; [revert Hq; clear; qlra|exact Hc]). replace (b * c)%num with (a * c + (b - a) * c)%num by ring. revert H3. generalize (a * c)%num ((b - a) * c)%num. clear. qlra.
Qed.

(** * C85: which integrals are computed, and what they are
    One for every time of the network, after the start, that is the latest time not after some
    time of integral_time_grid; in the order of the flow; averages from the start. *)
Theorem C85_stored : forall n kd TL TI p1 tl g r rtol F, exact kd rtol -> distribution_ok n p1 -> times_ok tl -> all_stochastic n TL TI ->
  flow_integral n kd TL TI p1 tl (Some g) r rtol = Some F -> let ts := flow_times TL TI tl r in
  exists ms, StronglySorted Nat.lt ms /\
    (forall m, In m ms <-> 0 < m /\ m <= steps_in TL TI tl /\ exists t, In t g /\ last_before r ts t (nth m ts 0%num)) /\
    Forall2 (fun A m => eqm n A (flow_average n TL TI p1 tl r m)) (f_I F) ms.
Proof.
  intros n kd TL TI p1 tl g r rtol F He Hp Ht HS HF ts. destruct (flow_stored _ _ _ _ _ _ _ _ _ _ HS HF) as (Ts & kg & tg & ES & HL & Hne & EG & _ & _ & _ & _ & EI).
  fold ts in EG, Hne, EI. assert (Hd := flow_times_directed TL TI tl r Ht). fold ts in Hd. rewrite (time_grid_some r ts g Hd Hne) in EG. injection EG as <- _.
  exists (stored (map (place r ts) (orient r g)) 0 (steps_in TL TI tl)). split; [apply stored_sorted|]. split.
  - intros m. rewrite stored_in, in_map_iff. split.
    + intros ((t & <- & Hin) & H0 & Hm). split; [exact H0|]. split; [exact Hm|]. exists t. split; [now apply (orient_in r)|].
      destruct (place_spec r ts t Hd Hne) as (_ & -> & _). now apply snap_spec.
    + intros (H0 & Hm & t & Hin & Hb). split; [|now split]. exists t. split; [|now apply orient_in].
      destruct (place_spec r ts t Hd Hne) as (HP & HE & _). assert (HU := last_before_unique r ts t _ _ Hd Hb (snap_spec r ts t Hd Hne)). rewrite <- HE in HU.
      symmetry. apply (monotone_inj ts); [now apply (directed_monotone r)| |exact HP|exact HU]. unfold ts. rewrite flow_times_length. unfold steps_in in Hm. lia.
  - rewrite EI. assert (HI : forall m, In m (stored (map (place r ts) (orient r g)) 0 (steps_in TL TI tl)) -> 0 < m /\ m <= steps_in TL TI tl) by (intros m Hm; apply stored_in in Hm; tauto).
    revert HI. generalize (stored (map (place r ts) (orient r g)) 0 (steps_in TL TI tl)). induction l as [|m l IH]; intros HI; constructor.
    + destruct (HI m (or_introl eq_refl)). now apply integral_at_average.
    + apply IH. intros a Ha. apply HI. now right.
Qed.
(** the times of the grid are looked up by value: at a time that occurs twice there is no integral *)
Theorem C85_repeated_raises : forall n kd TL TI p1 tl g r rtol t a b, let ts := flow_times TL TI tl r in
  a < b -> b < length ts -> nth a ts 0%num = t -> nth b ts 0%num = t -> In t g ->
  flow_integral n kd TL TI p1 tl (Some g) r rtol = None.
Proof.
  intros n kd TL TI p1 tl g r rtol t a b ts Hab Hb Ha Hbt Hg. destruct (flow_integral n kd TL TI p1 tl (Some g) r rtol) as [F|] eqn:HF; [|reflexivity]. exfalso.
  destruct (flow_integral_some _ _ _ _ _ _ _ _ _ _ HF) as (Ts & kg & tg & ES & Hne & Hts & EG & _).
  assert (ET : the_ts r tl Ts = ts) by (apply flow_times_the_ts; unfold source, given in *; destruct TL as [l|]; [now injection ES as ->|]; destruct TI as [l|]; [|discriminate]; replace (length l) with (length (list_reverse r l)) by (destruct r; [apply rev_length|reflexivity]); destruct (list_reverse r l); [discriminate|]; cbn [compute_T_list] in ES; injection ES as <-; cbn [length]; now rewrite T_from_length). rewrite ET in EG. cbn [time_grid] in EG.
  assert (Hin : In (index_of ts t) (map (index_of ts) (map (snap r ts) (orient r g)))).
  { apply in_map. apply in_map_iff. exists t. split; [|now apply orient_in]. unfold snap. assert (E : existsb (qeqb t) ts = true). { apply existsb_exists. exists t. split; [rewrite <- Hbt; now apply nth_In|]. now destruct (qeqb_spec t t). } now rewrite E. }
  assert (EN : index_of ts t = None).
  { unfold index_of. assert (Hf : forall k, k < length ts -> nth k ts 0%num = t -> In k (filter (fun k => qeqb (nth k ts 0%num) t) (seq 0 (length ts)))).
    { intros k Hk E. apply filter_In. split; [now apply seq_In_iff|]. rewrite E. now destruct (qeqb_spec t t). }
    assert (Fa := Hf a ltac:(lia) Ha). assert (Fb := Hf b Hb Hbt). destruct (filter _ _) as [|x [|y l]]; [reflexivity| |reflexivity]. destruct Fa as [Fa|[]], Fb as [Fb|[]]. lia. }
  rewrite EN in Hin. destruct (all_some (map (index_of ts) (map (snap r ts) (orient r g)))) as [kg'|] eqn:EA; [|discriminate EG]. revert Hin EA. generalize (map (index_of ts) (map (snap r ts) (orient r g))). clear. intros l. revert kg'.
  induction l as [|[x|] l IH]; intros kg' Hin EA; [destruct Hin| |discriminate EA]. destruct Hin as [E|Hin]; [discriminate|]. cbn [all_some] in EA. destruct (all_some l) as [z|]; [|discriminate]. exact (IH z Hin eq_refl).
Qed.
(** by default there is one integral, over the whole flow *)
Theorem C85_default : forall n kd TL TI p1 tl r rtol F, exact kd rtol -> distribution_ok n p1 -> times_ok tl -> all_stochastic n TL TI ->
  flow_integral n kd TL TI p1 tl None r rtol = Some F -> length (flow_times TL TI tl r) = S (length (given TL TI)) ->
  exists A, f_I F = [A] /\ eqm n A (flow_average n TL TI p1 tl r (length (given TL TI))).
Proof.
  intros n kd TL TI p1 tl r rtol F He Hp Ht HS HF HL. assert (HF' := HF). destruct (flow_stored _ _ _ _ _ _ _ _ _ _ HS HF) as (Ts & kg & tg & ES & HLT & Hne & EG & _ & _ & _ & _ & EI).
  cbn [time_grid] in EG. injection EG as <- _. assert (HLt := HL). rewrite flow_times_length in HLt.
  assert (HN : 0 < length (given TL TI)). { destruct (flow_integral_some _ _ _ _ _ _ _ _ _ _ HF') as (Ts' & _ & _ & ES' & Hn & _). rewrite ES in ES'. injection ES' as <-. destruct Ts; [congruence|]. cbn [length] in HLT. lia. }
  assert (EQ : stored [0; length (flow_times TL TI tl r) - 1] 0 (steps_in TL TI tl) = [length (given TL TI)]).
  { apply sorted_same; [apply stored_sorted|repeat constructor|]. intros m. rewrite stored_in. unfold steps_in. rewrite HLt, HL. cbn [In]. split; [intros ([H|[H|[]]] & H1 & H2); lia|]. intros [H|[]]. split; [right; left; lia|lia]. }
  rewrite EQ in EI. cbn [map] in EI. rewrite EI. eexists. split; [reflexivity|]. apply integral_at_average; try assumption. unfold steps_in. lia.
Qed.
Example C85_repeated_applies : let ts := flow_times None (Some [ident; ident]) (Some [qn 0; qn 1; qn 1]) false in
  nth 1 ts 0%num = qn 1 /\ nth 2 ts 0%num = qn 1 /\ length ts = 3.
Proof. repeat split. Qed.
Definition half : mat := fun _ _ => (/ 2)%num.
Lemma half_stochastic : stochastic 2 half.
Proof.
  split; [intros i j _ _; vm_compute; discriminate|]. intros i Hi. vm_compute. now apply Qc_is_canon.
Qed.
Lemma inter47_stochastic : all_stochastic 2 None (Some [ident; half]).
Proof. intros B [<-|[<-|[]]]; [apply stochastic_ident|apply half_stochastic]. Qed.
Lemma skewed : distribution 2 (fun i => if i =? 0 then qf 1 3 else qf 2 3).
Proof. split; [intros i Hi; destruct (i =? 0); vm_compute; discriminate|]. vm_compute. now apply Qc_is_canon. Qed.
Definition times47 : list num := [qn 0; qn 1; qn 2].
Lemma increasing_sorted ts : StronglySorted Qclt ts -> increasing ts.
Proof.
  induction 1 as [|t ts H IH HF]; intros a b Hab Hb; cbn [length] in Hb; [lia|]. destruct b as [|b]; [lia|]. rewrite Forall_forall in HF.
  destruct a as [|a]; cbn [nth]; [apply HF, nth_In; lia|]. apply IH; lia.
Qed.
Lemma times47_ok : increasing times47.
Proof. apply increasing_sorted. repeat constructor. Qed.
Example C46_applies : exists F, flow_integral 2 Dense None (Some [ident; half]) (Some (fun i => if i =? 0 then qf 1 3 else qf 2 3)) (Some times47) (Some [qn 2; qn 1]) true None = Some F /\ length (f_I F) = 1 /\
  exists F', flow_integral 2 (Sparse true) None (Some [ident; half]) (Some (fun i => if i =? 0 then qf 1 3 else qf 2 3)) (Some times47) (Some [qn 1; qn 2]) false (Some 0%num) = Some F' /\ length (f_I F') = 2.
Proof.
  assert (E1 : match flow_integral 2 Dense None (Some [ident; half]) (Some (fun i => if i =? 0 then qf 1 3 else qf 2 3)) (Some times47) (Some [qn 2; qn 1]) true None with Some F => length (f_I F) | None => 0 end = 1) by (vm_compute; reflexivity).
  assert (E2 : match flow_integral 2 (Sparse true) None (Some [ident; half]) (Some (fun i => if i =? 0 then qf 1 3 else qf 2 3)) (Some times47) (Some [qn 1; qn 2]) false (Some 0%num) with Some F => length (f_I F) | None => 0 end = 2) by (vm_compute; reflexivity).
  destruct (flow_integral 2 Dense _ _ _ _ _ _ _) as [F|]; [|discriminate]. destruct (flow_integral 2 (Sparse true) _ _ _ _ _ _ _) as [F'|]; [|discriminate].
  exists F. split; [reflexivity|]. split; [exact E1|]. exists F'. now split.
Qed.
Example C84_applies : exists F D, flow_integral 2 (Sparse true) None (Some [leaky]) None None None false (Some (qf 1 100000000)) = Some F /\
  flow_integral 2 Dense None (Some [leaky]) None None None false (Some (qf 1 100000000)) = Some D /\ length (f_I F) = 1 /\
  (0 < qf 1 2)%num /\ (forall i, i < 2 -> (qf 1 2 <= the_distribution 2 None i)%num) /\ nth 0 (f_I F) ident 0 1 <> nth 0 (f_I D) ident 0 1.
Proof.
  assert (E : match flow_integral 2 (Sparse true) None (Some [leaky]) None None None false (Some (qf 1 100000000)), flow_integral 2 Dense None (Some [leaky]) None None None false (Some (qf 1 100000000)) with
    | Some F, Some D => (length (f_I F), qeqb (nth 0 (f_I F) ident 0 1) (nth 0 (f_I D) ident 0 1)) | _, _ => (0, true) end = (1, false)) by (vm_compute; reflexivity).
  destruct (flow_integral 2 (Sparse true) _ _ _ _ _ _ _) as [F|]; [|discriminate]. destruct (flow_integral 2 Dense _ _ _ _ _ _ _) as [D|]; [|discriminate].
  exists F, D. injection E as E1 E2. split; [reflexivity|]. split; [reflexivity|]. split; [exact E1|]. split; [reflexivity|]. split; [intros i _; vm_compute; discriminate|].
  revert E2. generalize (nth 0 (f_I F) ident 0 1) (nth 0 (f_I D) ident 0 1). intros x y. now destruct (qeqb_spec x y).
Qed.

Lemma Forall2_same_length {A B} (R : A -> B -> Prop) l l' : Forall2 R l l' -> length l = length l'.
Proof. induction 1; cbn; congruence. Qed.
(** * C47: the k-th integral and the (k+1)-th time of the grid *)
Definition C47_statement : Prop := forall n TI p1 tl g r F, distribution_ok n p1 -> times_ok tl -> all_stochastic n None (Some TI) ->
  let ts := flow_times None (Some TI) tl r in length ts = S (length TI) -> 1 < length g ->
  (forall k, S k < length g -> flows_before r (nth k g 0%num) (nth (S k) g 0%num) /\ nth k g 0%num <> nth (S k) g 0%num) -> incl g ts ->
  flow_integral n Dense None (Some TI) p1 tl (Some g) r None = Some F ->
  forall k m, S k < length g -> m < length ts -> nth m ts 0%num = nth (S k) g 0%num ->
    eqm n (nth k (f_I F) ident) (flow_average n None (Some TI) p1 tl r m).
Theorem C47_later_start_refuted : ~ C47_statement.
Proof.
  intros H. set (run := flow_integral 2 Dense None (Some [ident; half]) None (Some times47) (Some [qn 1; qn 2]) false None).
  assert (E1 : match run with Some F => qeqb (nth 0 (f_I F) ident 0 0) (flow_average 2 None (Some [ident; half]) None (Some times47) false 2 0 0) | None => true end = false) by (vm_compute; reflexivity).
  destruct run as [F|] eqn:ER; [|discriminate E1].
  assert (HX := H 2 [ident; half] None (Some times47) [qn 1; qn 2] false F ltac:(cbn; lia) times47_ok inter47_stochastic eq_refl ltac:(cbn; lia)).
  assert (HG : forall k, S k < 2 -> flows_before false (nth k [qn 1; qn 2] 0%num) (nth (S k) [qn 1; qn 2] 0%num) /\ nth k [qn 1; qn 2] 0%num <> nth (S k) [qn 1; qn 2] 0%num).
  { intros k Hk. assert (k = 0) by lia. subst k. split; [vm_compute; discriminate|]. cbn [nth]. intros E. apply qn_inj in E. discriminate. }
  assert (HI : incl [qn 1; qn 2] times47) by (intros x [<-|[<-|[]]]; cbn; auto).
  specialize (HX HG HI ER 0 2 ltac:(cbn; lia) ltac:(cbn; lia) eq_refl 0 0 ltac:(lia) ltac:(lia)). rewrite HX in E1.
  revert E1. generalize (flow_average 2 None (Some [ident; half]) None (Some times47) false 2 0 0). intros x. now destruct (qeqb_spec x x).
Qed.
(** What holds: when the grid starts at the start of the flow or before, and there is a time of
    the network between any two of its times, there is one integral for each of the later times
    of the grid, over the steps up to the latest time of the network not after it. *)
Theorem C47_separated_partial : forall n kd TL TI p1 tl g g' r rtol F, exact kd rtol -> distribution_ok n p1 -> times_ok tl -> all_stochastic n TL TI ->
  let ts := flow_times TL TI tl r in length ts = S (length (given TL TI)) -> g <> [] ->
  flows_before r (nth 0 g 0%num) (nth 0 ts 0%num) ->
  (forall k, S k < length g -> exists j, 0 < j < length ts /\ flows_before r (nth k g 0%num) (nth j ts 0%num) /\ nth k g 0%num <> nth j ts 0%num /\ flows_before r (nth j ts 0%num) (nth (S k) g 0%num)) ->
  Permutation g' g -> flow_integral n kd TL TI p1 tl (Some g') r rtol = Some F ->
  S (length (f_I F)) = length g /\ forall k, S k < length g ->
    exists m, 0 < m < length ts /\ last_before r ts (nth (S k) g 0%num) (nth m ts 0%num) /\ eqm n (nth k (f_I F) ident) (flow_average n TL TI p1 tl r m).
Proof.
  intros n kd TL TI p1 tl g g' r rtol F He Hp Ht HS ts HL Hg Hf Hsep HP HF.
  destruct (C85_stored n kd TL TI p1 tl g' r rtol F He Hp Ht HS HF) as (ms & Hs & Hin & HFo). fold ts in Hin.
  assert (Hd := flow_times_directed TL TI tl r Ht). fold ts in Hd. assert (Hmono := directed_monotone _ _ Hd).
  assert (Hne : ts <> []) by (intros E; rewrite E in HL; discriminate). assert (HK : steps_in TL TI tl = length (given TL TI)). { unfold steps_in. rewrite <- (flow_times_length TL TI tl r). fold ts. lia. }
  assert (Hord : forall a b, a < length ts -> b < length ts -> flows_before r (nth a ts 0%num) (nth b ts 0%num) -> a <= b).
  { intros a b Ha Hb HB. destruct (Nat.le_gt_cases a b) as [L|L]; [exact L|]. exfalso. destruct r; cbn in Hd, HB; apply (Qcle_not_lt _ _ HB), Hd; assumption. }
  set (idx := fun k => place r ts (nth k g 0%num)).
  assert (Hidx : forall k, idx k < length ts /\ last_before r ts (nth k g 0%num) (nth (idx k) ts 0%num)).
  { intros k. destruct (place_spec r ts (nth k g 0%num) Hd Hne) as (H1 & H2 & _). unfold idx. split; [exact H1|]. rewrite H2. now apply snap_spec. }
  assert (Hstep : forall k, S k < length g -> idx k < idx (S k)).
  { intros k Hk. destruct (Hsep k Hk) as (j & (Hj0 & Hj) & H1 & H2 & H3). destruct (Hidx k) as [Hi (_ & Hb & _)]. destruct (Hidx (S k)) as [Hi' (_ & _ & Hm)].
    assert (HjS : j <= idx (S k)) by (apply Hord; [exact Hj|exact Hi'|]; apply Hm; [now apply nth_In|exact H3]).
    assert (Hkj : idx k < j); [|lia]. destruct Hb as [Hb|Hb].
    - assert (HB : flows_before r (nth (idx k) ts 0%num) (nth j ts 0%num)) by (destruct r; cbn in *; eapply Qcle_trans; eassumption).
      assert (Hle := Hord _ _ Hi Hj HB). destruct (Nat.eq_dec (idx k) j) as [E|]; [|lia]. exfalso. rewrite E in Hb. apply H2. destruct r; cbn in *; now apply Qcle_antisym.
    - assert (idx k = 0) by (apply (monotone_inj ts); [exact Hmono|exact Hi|lia|exact Hb]). lia. }
  assert (H0 : idx 0 = 0).
  { destruct (Hidx 0) as [Hi (Hin0 & Hb & _)]. apply (monotone_inj ts); [exact Hmono|exact Hi|lia|]. destruct Hb as [Hb|Hb]; [|exact Hb].
    assert (HFB := first_before r ts _ Hd Hin0). destruct r; cbn in *; apply Qcle_antisym; try assumption; eapply Qcle_trans; eassumption. }
  assert (Hmon : forall a b, a < b -> b < length g -> idx a < idx b).
  { intros a b Hab. induction Hab as [|b Hab IH]; intros Hb; [now apply Hstep|]. specialize (IH ltac:(lia)). specialize (Hstep b ltac:(lia)). lia. }
  assert (Hms : ms = map idx (seq 1 (length g - 1))).
  { apply sorted_same; [exact Hs| |].
    - assert (HG : forall len s, s + len <= length g -> StronglySorted Nat.lt (map idx (seq s len))).
      { induction len as [|len IH]; intros s Hl; cbn; constructor; [apply IH; lia|]. apply Forall_forall. intros x Hx. apply in_map_iff in Hx. destruct Hx as (b & <- & Hb). apply in_seq in Hb. apply Hmon; lia. }
      apply HG. destruct g; [congruence|]. cbn [length]. lia.
    - intros m. rewrite Hin, in_map_iff. split.
      + intros (Hm0 & Hm & t & Htg & Hb). assert (Htg' : In t g) by (now apply (Permutation_in t HP)). destruct (In_nth _ _ 0%num Htg') as (k & Hk & Ek).
        destruct (Hidx k) as [Hi Hbk]. rewrite Ek in Hbk. assert (HU := last_before_unique r ts t _ _ Hd Hb Hbk). assert (m = idx k) by (apply (monotone_inj ts); [exact Hmono|lia|exact Hi|exact HU]). subst m.
        exists k. split; [reflexivity|]. apply in_seq. destruct k; [lia|]. lia.
      + intros (k & <- & Hk). apply in_seq in Hk. destruct (Hidx k) as [Hi Hbk]. assert (Hk0 := Hmon 0 k ltac:(lia) ltac:(lia)). split; [lia|]. split; [lia|].
        exists (nth k g 0%num). split; [|exact Hbk]. apply (Permutation_in (nth k g 0%num) (Permutation_sym HP)). apply nth_In. lia. }
  assert (Hlen : length (f_I F) = length g - 1). { rewrite (Forall2_same_length _ _ _ HFo), Hms, map_length, seq_length. reflexivity. }
  split. { rewrite Hlen. destruct g; [congruence|]. cbn [length]. lia. }
  intros k Hk. exists (idx (S k)). destruct (Hidx (S k)) as [Hi Hb]. assert (Hpos := Hmon 0 (S k) ltac:(lia) Hk). split; [lia|]. split; [exact Hb|].
  assert (HN : forall (l : list mat) (ms : list nat), Forall2 (fun A m => eqm n A (flow_average n TL TI p1 tl r m)) l ms -> forall k, k < length ms -> eqm n (nth k l ident) (flow_average n TL TI p1 tl r (nth k ms 0))).
  { induction 1 as [|A m l1 l2 HA HR IH]; intros q Hq; cbn [length] in Hq; [lia|]. destruct q as [|q]; [exact HA|]. apply IH. lia. }
  assert (HNk := HN _ _ HFo k). rewrite Hms, map_length, seq_length in HNk. specialize (HNk ltac:(lia)).
  replace (nth k (map idx (seq 1 (length g - 1))) 0) with (idx (S k)) in HNk; [exact HNk|].
  rewrite (nth_indep _ 0 (idx 0)) by (rewrite map_length, seq_length; lia). rewrite map_nth, seq_nth by lia. reflexivity.
Qed.
Example C47_applies : let g := [qn 0; qf 3 2; qn 5] in let ts := flow_times None (Some [ident; half]) (Some times47) false in
  length ts = S (length (given None (Some [ident; half]))) /\ flows_before false (nth 0 g 0%num) (nth 0 ts 0%num) /\
  (forall k, S k < length g -> exists j, 0 < j < length ts /\ flows_before false (nth k g 0%num) (nth j ts 0%num) /\ nth k g 0%num <> nth j ts 0%num /\ flows_before false (nth j ts 0%num) (nth (S k) g 0%num)) /\
  match flow_integral 2 Dense None (Some [ident; half]) None (Some times47) (Some (rev g)) false None with Some F => length (f_I F) = 2 | None => False end.
Proof.
  split; [reflexivity|]. split; [vm_compute; discriminate|]. split; [|vm_compute; reflexivity].
  intros k Hk. cbn [length] in Hk. exists (S k). assert (Hc : k = 0 \/ k = 1) by lia. destruct Hc as [-> | ->]; cbn; (split; [lia|]); (split; [vm_compute; discriminate|]); (split; [intros E; vm_compute in E; discriminate E|vm_compute; discriminate]).
Qed.

(** * C86-C88: equivalent descriptions of a flow *)
Section Same.
Context (n : nat) (kd kd' : kind) (TL TI TL' TI' : option (list mat)) (p1 : option (nat -> num)) (tl tl' : option (list num)) (r r' : bool) (h : num -> num) (c : num).
Context (Hc : (0 < c)%num) (Hgap : forall a b, qabs (h a - h b)%num = (c * qabs (a - b))%num)
  (Hord : forall a b, flows_before r' (h a) (h b) <-> flows_before r a b)
  (Hts : flow_times TL' TI' tl' r' = map h (flow_times TL TI tl r))
  (Hlen : steps_in TL' TI' tl' = steps_in TL TI tl)
  (HT : forall k, k < steps_in TL TI tl -> eqm n (flow_transition n TL' TI' r' k) (flow_transition n TL TI r k)).
Lemma h_inj a b : h a = h b -> a = b.
Proof.
  intros E. assert (H1 : flows_before r a b) by (apply Hord; rewrite E; destruct r'; apply Qcle_refl).
  assert (H2 : flows_before r b a) by (apply Hord; rewrite E; destruct r'; apply Qcle_refl). destruct r; cbn in *; now apply Qcle_antisym.
Qed.
Lemma nth_h m : m < length (flow_times TL TI tl r) -> nth m (flow_times TL' TI' tl' r') 0%num = h (nth m (flow_times TL TI tl r) 0%num).
Proof. intros Hm. rewrite Hts, (nth_indep _ 0%num (h 0%num)) by now rewrite map_length. apply map_nth. Qed.
Lemma below_steps m : m <= steps_in TL TI tl -> 0 < m -> m < length (flow_times TL TI tl r).
Proof. intros H H0. rewrite flow_times_length. unfold steps_in in H. lia. Qed.
Lemma same_average m : 0 < m -> m <= steps_in TL TI tl -> eqm n (flow_average n TL' TI' p1 tl' r' m) (flow_average n TL TI p1 tl r m).
Proof.
  intros H0 Hm i j Hi Hj. assert (HL := below_steps m Hm H0). unfold flow_average, time_average. rewrite !nth_h by lia. rewrite Hgap.
  replace (sumN m (fun k => gap (flow_times TL' TI' tl' r') k * flow_cov n (the_distribution n p1) (flow_transition n TL' TI' r' k) i j))%num
    with (c * sumN m (fun k => gap (flow_times TL TI tl r) k * flow_cov n (the_distribution n p1) (flow_transition n TL TI r k) i j))%num.
  - generalize (qabs (nth m (flow_times TL TI tl r) 0 - nth 0 (flow_times TL TI tl r) 0))%num. intros x. destruct (qeqb_spec x 0%num) as [-> |Hx].
    + replace (c * 0)%num with 0%num by ring. unfold Qcdiv. replace (/ 0)%num with 0%num by reflexivity. ring.
    + field. split; [exact Hx|now apply qneq_pos].
  - rewrite <- sumN_scal_l. apply sumN_ext. intros k Hk. unfold gap. rewrite !nth_h by lia. rewrite Hgap, (flow_cov_ext n _ _ _ (HT k ltac:(lia)) i j Hi Hj). ring.
Qed.
Lemma same_last t m : m < length (flow_times TL TI tl r) ->
  (last_before r' (flow_times TL' TI' tl' r') (h t) (nth m (flow_times TL' TI' tl' r') 0%num) <-> last_before r (flow_times TL TI tl r) t (nth m (flow_times TL TI tl r) 0%num)).
Proof.
  intros Hm. rewrite nth_h by exact Hm. unfold last_before. rewrite (nth_h 0) by lia. set (s := nth m (flow_times TL TI tl r) 0%num). rewrite Hts. split; intros (H1 & H2 & H3).
  - split; [now apply nth_In|]. split; [destruct H2 as [H2|H2]; [left; now apply Hord|right; now apply h_inj]|].
    intros u Hu Hb. apply Hord. apply H3; [now apply in_map|now apply Hord].
  - split; [now apply in_map|]. split; [destruct H2 as [H2|H2]; [left; now apply Hord|right; congruence]|].
    intros v Hv Hb. apply in_map_iff in Hv. destruct Hv as (u & <- & Hu). apply Hord. apply H3; [exact Hu|now apply Hord].
Qed.
Lemma same_integrals g rtol rtol' F F' : exact kd rtol -> exact kd' rtol' -> distribution_ok n p1 -> times_ok tl -> times_ok tl' -> all_stochastic n TL TI -> all_stochastic n TL' TI' ->
  flow_integral n kd TL TI p1 tl (Some g) r rtol = Some F -> flow_integral n kd' TL' TI' p1 tl' (Some (map h g)) r' rtol' = Some F' -> Forall2 (eqm n) (f_I F) (f_I F').
Proof.
  intros He He' Hp Ht Ht' HS HS' HF HF'. destruct (C85_stored _ _ _ _ _ _ _ _ _ _ He Hp Ht HS HF) as (ms & Hs & Hin & HFo). destruct (C85_stored _ _ _ _ _ _ _ _ _ _ He' Hp Ht' HS' HF') as (ms' & Hs' & Hin' & HFo').
  cbv zeta in Hin, Hin'. assert (E : ms' = ms).
  { apply sorted_same; [exact Hs'|exact Hs|]. intros m. rewrite Hin, Hin', Hlen. split; intros (H0 & Hm & t & Hg & Hb); split; [exact H0| |exact H0|]; split; try exact Hm.
    - apply in_map_iff in Hg. destruct Hg as (t' & <- & Hg). exists t'. split; [exact Hg|]. apply (same_last t' m); [now apply below_steps|exact Hb].
    - exists (h t). split; [now apply in_map|]. apply same_last; [now apply below_steps|exact Hb]. }
  subst ms'. assert (HB : forall m, In m ms -> 0 < m /\ m <= steps_in TL TI tl) by (intros m Hm; apply Hin in Hm; tauto). clear Hin Hin' Hs Hs' HF HF'.
  revert HFo' HB. generalize (f_I F'). induction HFo as [|A m l ms HA HR IH]; intros l' HFo' HB; inversion HFo' as [|A' m' l1 l2 HA' HR']; subst; constructor.
  - eapply eqm_trans; [exact HA|]. eapply eqm_trans; [|apply eqm_sym, HA']. apply eqm_sym. destruct (HB m (or_introl eq_refl)). now apply same_average.
  - apply IH; [exact HR'|]. intros a Ha. apply HB. now right.
Qed.
End Same.

(** ** C86: the unit and the origin of time do not matter *)
Lemma increasing_affine c d ts : (0 < c)%num -> increasing ts -> increasing (map (fun t => c * t + d)%num ts).
Proof.
  intros Hc H a b Hab Hb. rewrite map_length in Hb. assert (E : forall k, k < length ts -> nth k (map (fun t => c * t + d)%num ts) 0%num = (c * nth k ts 0 + d)%num).
  { intros k Hk. rewrite (nth_indep _ 0%num (c * 0 + d)%num) by now rewrite map_length. apply (map_nth (fun t => (c * t + d)%num)). }
  rewrite !E by lia. specialize (H a b Hab Hb). assert (H1 : (0 < c * (nth b ts 0 - nth a ts 0))%num) by (apply qmult_pos; [exact Hc|revert H; generalize (nth a ts 0%num) (nth b ts 0%num); clear; qlra]).
  replace (c * nth b ts 0 + d)%num with (c * nth a ts 0 + d + c * (nth b ts 0 - nth a ts 0))%num by ring. revert H1. generalize (c * nth a ts 0 + d)%num (c * (nth b ts 0 - nth a ts 0))%num. clear. qlra.
Qed.
Theorem C86_time_unit : forall n kd TL TI p1 ts g r rtol c d F F', (0 < c)%num -> exact kd rtol -> distribution_ok n p1 -> increasing ts -> all_stochastic n TL TI ->
  flow_integral n kd TL TI p1 (Some ts) (Some g) r rtol = Some F ->
  flow_integral n kd TL TI p1 (Some (map (fun t => c * t + d)%num ts)) (Some (map (fun t => c * t + d)%num g)) r rtol = Some F' ->
  Forall2 (eqm n) (f_I F) (f_I F').
Proof.
  intros n kd TL TI p1 ts g r rtol c d F F' Hc He Hp Ht HS HF HF'. set (h := fun t => (c * t + d)%num) in *.
  apply (same_integrals n kd kd TL TI TL TI p1 (Some ts) (Some (map h ts)) r r h c) with (g := g) (rtol := rtol) (rtol' := rtol); try assumption.
  - intros a b. unfold h. replace (c * a + d - (c * b + d))%num with (c * (a - b))%num by ring. unfold qabs. destruct (qltb_spec (a - b)%num 0%num) as [H|H], (qltb_spec (c * (a - b))%num 0%num) as [H'|H']; try ring.
    + exfalso. apply H'. assert (H2 := qmult_pos c (- (a - b))%num Hc). revert H H2 H'. generalize (a - b)%num. clear. intros x H H2 H'. assert (H3 : (0 < c * - x)%num) by (apply H2; revert H; clear; qlra). replace (c * - x)%num with (- (c * x))%num in H3 by ring. revert H3. generalize (c * x)%num. clear. qlra.
    + exfalso. apply Qcnot_lt_le in H. assert (H2 := qmult_nonneg c (a - b)%num (Qclt_le_weak _ _ Hc) H). revert H' H2. generalize (c * (a - b))%num. clear. qlra.
  - intros a b. assert (HQ : forall x y, (h x <= h y)%num <-> (x <= y)%num).
    { intros x y. unfold h. split; intros H.
      - destruct (Qclt_le_dec y x) as [L|L]; [|exact L]. exfalso. assert (H1 : (0 < c * (x - y))%num) by (apply qmult_pos; [exact Hc|revert L; clear; qlra]). replace (c * x + d)%num with (c * y + d + c * (x - y))%num in H by ring. revert H H1. generalize (c * y + d)%num (c * (x - y))%num. clear. qlra.
      - assert (H1 : (0 <= c * (y - x))%num) by (apply qmult_nonneg; [now apply Qclt_le_weak|revert H; clear; qlra]). replace (c * y + d)%num with (c * x + d + c * (y - x))%num by ring. revert H1. generalize (c * x + d)%num (c * (y - x))%num. clear. qlra. }
    destruct r; apply HQ.
  - unfold flow_times. cbn [the_times]. destruct r; [symmetry; apply map_rev|reflexivity].
  - unfold steps_in. cbn [the_times]. now rewrite map_length.
  - intros k _. apply eqm_refl.
  - now apply increasing_affine.
Qed.
(** ** C87: the backward flow is the forward flow of the reversed sequence *)
Lemma increasing_mirror d ts : increasing ts -> increasing (map (fun t => d - t)%num (rev ts)).
Proof.
  intros H a b Hab Hb. rewrite map_length in Hb. assert (E : forall k, k < length (rev ts) -> nth k (map (fun t => d - t)%num (rev ts)) 0%num = (d - nth k (rev ts) 0)%num).
  { intros k Hk. rewrite (nth_indep _ 0%num (d - 0)%num) by now rewrite map_length. apply (map_nth (fun t => (d - t)%num)). }
  rewrite !E by lia. assert (HR := rev_decreasing ts H a b Hab Hb). revert HR. generalize (nth a (rev ts) 0%num) (nth b (rev ts) 0%num). clear. qlra.
Qed.
Theorem C87_backward : forall n kd l p1 ts g rtol d F F', exact kd rtol -> distribution_ok n p1 -> increasing ts -> all_stochastic n None (Some l) ->
  flow_integral n kd None (Some l) p1 (Some ts) (Some g) true rtol = Some F ->
  flow_integral n kd None (Some (rev l)) p1 (Some (map (fun t => d - t)%num (rev ts))) (Some (map (fun t => d - t)%num g)) false rtol = Some F' ->
  Forall2 (eqm n) (f_I F) (f_I F').
Proof.
  intros n kd l p1 ts g rtol d F F' He Hp Ht HS HF HF'. set (h := fun t => (d - t)%num) in *.
  apply (same_integrals n kd kd None (Some l) None (Some (rev l)) p1 (Some ts) (Some (map h (rev ts))) true false h 1%num) with (g := g) (rtol := rtol) (rtol' := rtol); try assumption.
  - reflexivity.
  - intros a b. unfold h. replace (d - a - (d - b))%num with (- (a - b))%num by ring. unfold qabs. destruct (qltb_spec (a - b)%num 0%num) as [H|H], (qltb_spec (- (a - b))%num 0%num) as [H'|H']; revert H H'; generalize (a - b)%num; clear; intros x H H'; try ring; try (exfalso; qlra). assert (x = 0%num) by (apply Qcle_antisym; qlra). subst x. ring.
  - intros a b. cbn. unfold h. split; qlra.
  - unfold flow_times. cbn [the_times]. reflexivity.
  - unfold steps_in. cbn [the_times given]. now rewrite map_length, !rev_length.
  - intros k _. apply eqm_refl.
  - now apply increasing_mirror.
  - intros B HB. cbn [given] in HB. apply HS. cbn [given]. now apply in_rev.
Qed.
(** ** C88: giving the transitions from the start, as computed by compute_transition_matrices
    with save_intermediate (C39), or those of the steps *)
Theorem C88_T_list : forall n kd kd' l Ts p1 tl g r rtol rtol' F F', exact kd rtol -> exact kd' rtol' -> distribution_ok n p1 -> times_ok tl -> all_stochastic n None (Some l) ->
  product_of n true (in_order r l) (Many Ts) ->
  flow_integral n kd None (Some l) p1 tl (Some g) r rtol = Some F -> flow_integral n kd' (Some Ts) None p1 tl (Some g) r rtol' = Some F' ->
  Forall2 (eqm n) (f_I F) (f_I F').
Proof.
  intros n kd kd' l Ts p1 tl g r rtol rtol' F F' He He' Hp Ht HS (_ & HL & HK) HF HF'.
  assert (HLl : length (in_order r l) = length l) by (destruct r; [apply rev_length|reflexivity]).
  rewrite <- (map_id g) in HF' at 1.
  apply (same_integrals n kd kd' None (Some l) (Some Ts) None p1 tl tl r r (fun t => t) 1%num) with (g := g) (rtol := rtol) (rtol' := rtol'); try assumption.
  - reflexivity.
  - intros a b. ring.
  - intros a b. reflexivity.
  - unfold flow_times. cbn [given]. rewrite map_id. now rewrite HL, HLl.
  - unfold steps_in. cbn [given]. now rewrite HL, HLl.
  - intros k Hk. unfold steps_in in Hk. cbn [given] in Hk. cbn [flow_transition given]. apply HK. lia.
  - intros B HB. cbn [given] in HB. destruct (In_nth _ _ ident HB) as (k & Hk & <-). eapply stochastic_ext; [apply eqm_sym, HK; lia|]. apply stochastic_chain. intros A HA. apply HS. cbn [given].
    assert (HA' : In A (in_order r l)) by (rewrite <- (firstn_skipn (S k) (in_order r l)); apply in_or_app; now left). destruct r; [now apply in_rev|exact HA'].
Qed.
Example C86_applies : match flow_integral 2 Dense None (Some [ident; half]) None (Some times47) (Some [qn 0; qn 2]) true None,
    flow_integral 2 Dense None (Some (rev [ident; half])) None (Some (map (fun t => qn 2 - t)%num (rev times47))) (Some (map (fun t => qn 2 - t)%num [qn 0; qn 2])) false None,
    flow_integral 2 Dense None (Some [ident; half]) None (Some (map (fun t => qn 3 * t + 1)%num times47)) (Some (map (fun t => qn 3 * t + 1)%num [qn 0; qn 2])) true None,
    flow_integral 2 (Sparse false) (Some [half; mmul 2 half ident]) None None (Some times47) (Some [qn 0; qn 2]) true None with
  | Some F, Some F', Some F2, Some F3 => length (f_I F) = 1 /\ length (f_I F') = 1 /\ length (f_I F2) = 1 /\ length (f_I F3) = 1 | _, _, _, _ => False end.
Proof. vm_compute. repeat split. Qed.

(** * C89: an analysis restricted to a window of time
    The Laplacians and transition matrices of a window are used with the times of the whole
    network. *)
Definition window_times (ts : list num) (ka kb : nat) : list num := firstn (S kb - ka) (skipn ka ts).
Definition C89_statement : Prop := forall n ts lapf E Z P a b lamda fixt sparse st s l ka kb Ls p1 r F, laplacians_ok n ts lapf -> StronglySorted Qclt ts -> expm_ok n E -> distribution_ok n p1 ->
  run n ts lapf E Z P [CLap a b; CInter (Some lamda) None None fixt sparse] tn0 = Some st -> aget qeqb (t_inter st) lamda = Some (s, l) ->
  lapf a b = Some (ka, kb, Ls) -> ka < kb -> set_flow n ts l p1 None r None = Some F ->
  exists A, f_I F = [A] /\ eqm n A (flow_average n None (Some l) p1 (Some (window_times ts ka kb)) r (kb - ka)).
Theorem C89_window_refuted : ~ C89_statement.
Proof.
  intros H. set (h := [CLap (Some (qn 0)) (Some (qn 1)); CInter (Some 1%num) None None false false]).
  assert (E1 : match run 3 (times (rows net39)) lap39 Estep (zeroed 3) (fun A => A) h tn0 with
    | Some st => match aget qeqb (t_inter st) 1%num with Some (_, l) => match set_flow 3 (times (rows net39)) l None None false None with Some F => Some (length l, length (f_I F)) | None => None end | None => None end | None => None end = Some (1, 0)) by (vm_compute; reflexivity).
  assert (E2 : match lap39 (Some (qn 0)) (Some (qn 1)) with Some (ka, kb, _) => ka <? kb | None => false end = true) by (vm_compute; reflexivity).
  destruct (run 3 (times (rows net39)) lap39 Estep (zeroed 3) (fun A => A) h tn0) as [st|] eqn:ER; [|discriminate E1].
  destruct (aget qeqb (t_inter st) 1%num) as [[s l]|] eqn:EA; [|discriminate E1]. destruct (set_flow 3 (times (rows net39)) l None None false None) as [F|] eqn:EF; [|discriminate E1].
  destruct (lap39 (Some (qn 0)) (Some (qn 1))) as [[[ka kb] Ls]|] eqn:EL; [|discriminate E2]. apply Nat.ltb_lt in E2. injection E1 as _ E1.
  destruct (H 3 _ lap39 Estep (zeroed 3) (fun A => A) (Some (qn 0)) (Some (qn 1)) 1%num false false st s l ka kb Ls None false F (proj1 lap39_ok) (proj2 lap39_ok) (Estep_ok 3) ltac:(cbn; lia) ER EA EL E2 EF) as (A & HA & _).
  rewrite HA in E1. discriminate E1.
Qed.
(** In general: fewer matrices than steps between the times of the network, and the default grid,
    give no integral at all. *)
Theorem C89_no_integral : forall n times inter p1 r rtol F, length inter < length times - 1 -> all_stochastic n None (Some inter) ->
  set_flow n times inter p1 None r rtol = Some F -> f_I F = [].
Proof.
  intros n times inter p1 r rtol F HL HS HF. destruct (flow_stored _ _ _ _ _ _ _ _ _ _ HS HF) as (Ts & kg & tg & _ & _ & _ & EG & _ & _ & _ & _ & EI).
  cbn [time_grid] in EG. injection EG as <- _. rewrite EI. set (l := stored _ _ _). destruct l as [|m l'] eqn:El; [reflexivity|]. exfalso.
  assert (Hm : In m l) by (rewrite El; now left). unfold l in Hm. apply stored_in in Hm. unfold steps_in in Hm. rewrite flow_times_length in Hm. cbn [given the_times In] in Hm. lia.
Qed.
(** What holds: without a window, the integral is the average over the whole time. *)
Theorem C89_whole_partial : forall n times inter p1 r rtol F, S (length inter) = length times -> increasing times -> distribution_ok n p1 -> all_stochastic n None (Some inter) ->
  set_flow n times inter p1 None r rtol = Some F ->
  exists A, f_I F = [A] /\ eqm n A (flow_average n None (Some inter) p1 (Some times) r (length inter)).
Proof.
  intros n times inter p1 r rtol F HL Ht Hp HS HF. apply (C85_default n Dense None (Some inter) p1 (Some times) r rtol F); try assumption; [now left|]. rewrite flow_times_length. cbn [the_times given]. now symmetry.
Qed.
Example C89_applies : match set_flow 2 times47 [ident; half] None None true None, set_flow 2 times47 [half] None None true None with
  | Some F, Some F' => length (f_I F) = 1 /\ length (f_I F') = 0 | _, _ => False end.
Proof. vm_compute. split; reflexivity. Qed.

Print Assumptions C46_computed.
Print Assumptions C46_rounding_refuted.
Print Assumptions C46_exact_partial.
Print Assumptions C46_symmetric_partial.
Print Assumptions C84_rounding.
Print Assumptions C85_stored.
Print Assumptions C85_repeated_raises.
Print Assumptions C85_default.
Print Assumptions C47_later_start_refuted.
Print Assumptions C47_separated_partial.
Print Assumptions C86_time_unit.
Print Assumptions C87_backward.
Print Assumptions C88_T_list.
Print Assumptions C89_window_refuted.
Print Assumptions C89_no_integral.
Print Assumptions C89_whole_partial.
