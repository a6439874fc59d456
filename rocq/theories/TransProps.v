(** Transition matrices: properties C39-C44, C55, C77-C84. *)
From Verif Require Import Base LouvainModel SparseModel SparseSpec SparseProofs EventsModel EventsSpec EventsProofs LaplacianProofs EventsProps TransModel TransSpec MatProofs TransProofs ExpmProofs.

(** * Laplacians of a network meet the contract *)
Theorem C39_network_laplacians : forall fuel reset srcs tgts starts ends N g, make_net fuel reset false srcs tgts starts ends = Some N ->
  rows N <> [] -> ids_ok N = true -> no_self_contact (rows N) -> is_time_grid (rows N) g ->
  laplacians_ok (num_nodes_of N) (times (rows N)) (compute_laplacians N g) /\ StronglySorted Qclt (times (rows N)).
Proof.
  intros fuel reset srcs tgts starts ends N g HN Hne Hids Hself HG. split; [|apply times_sorted]. intros a b.
  assert (HO : own_index (rows N)). { unfold make_net in HN. destruct (build_table reset srcs tgts starts ends) as [t|] eqn:EB; [|discriminate]. injection HN as <-. now destruct (build_table_perm _ _ _ _ _ _ EB) as (_ & _ & _ & HO & _). }
  destruct (laplacians_gen N g a b (fun _ _ => True) (fun _ _ => True)) as (ka & kb & Ls & E & Ha & Hb & Sa & Sb & HLen & HK); auto.
  exists ka, kb, Ls. repeat (split; [assumption|]). intros k Hk. destruct (HK k Hk) as (on & s & W & _ & En). replace (nth k Ls ident) with (nth k Ls (fun _ _ => 0%num)) by (apply nth_indep; lia). rewrite En.
  apply (walk_like_graph _ on); [apply W|intros; now apply laplacian_walk].
Qed.
(** the implicit step I - x/(1+x) L, standing for the exponential in examples *)
Definition Estep (x : num) (L : mat) : mat := mminus ident (mscal (x / (1 + x))%num L).
Lemma walk_like_stochastic n L : walk_like n L -> stochastic n (mminus ident L).
Proof.
  intros (H1 & H2 & H3). split.
  - intros i j Hi Hj. unfold mminus, ident. destruct (Nat.eqb_spec i j) as [->|Hne].
    + destruct (H2 j Hj) as [-> | ->]; qlra.
    + destruct (H3 i j Hi Hj Hne). qlra.
  - intros i Hi. unfold mminus. rewrite sumN_sub, ident_sum by exact Hi. specialize (H1 i Hi). change (sumN n (L i) = 0%num) in H1. rewrite H1. ring.
Qed.
Lemma Estep_ok n : expm_ok n Estep.
Proof.
  split.
  - intros x L Hx HL. apply (stochastic_ext n (mplus (mscal (1 - x / (1 + x))%num ident) (mscal (x / (1 + x))%num (mminus ident L)))).
    + intros i j _ _. unfold Estep, mplus, mminus, mscal. ring.
    + assert (H : (0 < 1 + x)%num) by qlra. assert (Hd : (x / (1 + x) = 1 - 1 / (1 + x))%num) by (field; intros E0; assert (E1 : (1 + x = 0)%num) by exact E0; qlra).
      pose proof (qinv_pos _ H) as HI. apply mix_stochastic; [apply stochastic_ident|now apply walk_like_stochastic|apply qdiv_nonneg; [exact Hx|exact H]|]. rewrite Hd. unfold Qcdiv. qlra.
  - intros x L H i j Hi Hj. unfold Estep, mminus, mscal. rewrite (H i j Hi Hj). ring.
Qed.

(** * C39: products *)
Lemma product_stochastic n sv l v : (forall A, In A l -> stochastic n A) -> product_of n sv l v -> forall A, held v A -> stochastic n A.
Proof.
  intros Hl Hv A HA. destruct v as [out|B]; cbn in HA.
  - destruct Hv as (_ & HL & Hv). apply (In_nth _ _ ident) in HA. destruct HA as (k & Hk & <-). apply (stochastic_ext n (chain n (firstn (S k) l))); [apply eqm_sym, Hv; lia|]. apply stochastic_chain. intros B HB. apply Hl. rewrite <- (firstn_skipn (S k) l). apply in_or_app. now left.
  - subst A. apply (stochastic_ext n (chain n l)); [apply eqm_sym, Hv|]. now apply stochastic_chain.
Qed.
Lemma out_product n Z sv l A r : l = A :: r -> (forall B, In B l -> stochastic n B) ->
  product_of n sv l (if sv then Many (A :: products n Z None A r) else One (last (A :: products n Z None A r) ident)).
Proof.
  intros -> Hl. pose proof (out_chain n Z A r Hl) as HC. assert (HL : length (A :: products n Z None A r) = length (A :: r)) by (cbn [length]; now rewrite products_length). destruct sv.
  - split; [reflexivity|]. split; [exact HL|exact HC].
  - split; [reflexivity|]. rewrite last_nth, HL. replace (length (A :: r) - 1) with (length r) by (cbn; lia). eapply eqm_trans; [apply HC; cbn; lia|]. rewrite (firstn_all2 (A :: r)) by (cbn; lia). apply eqm_refl.
Qed.
Theorem C39_products : forall n Z lamda save rev_time force st s l, aget qeqb (t_inter st) lamda = Some (s, l) -> l <> [] ->
  (forall A, In A l -> stochastic n A) -> aget qeqb (t_T st) lamda = None ->
  exists st' v, compute_trans n Z lamda save rev_time force None st = Some st' /\ aget qeqb (t_T st') lamda = Some v /\
    product_of n save (in_order rev_time l) v /\ (forall A, held v A -> stochastic n A).
Proof.
  intros n Z x sv rv fc st s l HI Hne Hl HT. unfold compute_trans. rewrite HI, HT. fold (in_order rv l).
  assert (Hl' : forall B, In B (in_order rv l) -> stochastic n B). { intros B HB. apply Hl. unfold in_order in HB. destruct rv; [now apply in_rev|exact HB]. }
  destruct (in_order rv l) as [|A r] eqn:EL.
  - exfalso. apply Hne. unfold in_order in EL. destruct rv; [|exact EL]. apply (f_equal (@rev mat)) in EL. now rewrite rev_involutive in EL.
  - eexists _, _. split; [reflexivity|]. cbn [t_T set_T set_inter clean]. rewrite get_same. split; [reflexivity|]. pose proof (out_product n Z sv (A :: r) A r eq_refl Hl') as HP. split; [exact HP|]. now apply (product_stochastic n sv (A :: r)).
Qed.
Lemma sorted_step ts fixt ka k : StronglySorted Qclt ts -> S (ka + k) < length ts -> (0 <= step_length ts fixt ka k)%num.
Proof.
  intros HS Hk. unfold step_length. destruct fixt; [discriminate|]. destruct (next_time_nth ts (ka + k) HS Hk) as [H _]. qlra.
Qed.
Lemma inter_per_step n E ts fixt x ka kb Ls l : expm_ok n E -> kb < length ts -> length Ls = kb - ka -> inter_matrices n ts E fixt x (ka, kb, Ls) = Some l ->
  one_per_step n ka kb (fun k => E (step_length ts fixt ka k * x)%num (nth k Ls ident)) l.
Proof.
  intros HE Hkb HLs H. destruct (inter_matrices_spec n E ts fixt x ka kb Ls Hkb HLs) as (l' & E' & H1 & H2). rewrite E' in H. injection H as ->. split.
  - intros Hle. rewrite (H1 ltac:(lia)). repeat constructor.
  - intros Hlt. destruct (H2 ltac:(lia)) as [HL Hk]. split; [exact HL|]. intros k Hkk. rewrite (Hk k Hkk). apply inter_step_eqm. exact HE.
Qed.
Lemma per_step_stochastic n ka kb f l : one_per_step n ka kb f l -> (forall k, k < kb - ka -> stochastic n (f k)) -> l <> [] /\ forall A, In A l -> stochastic n A.
Proof.
  intros [H1 H2] Hf. destruct (Nat.le_gt_cases kb ka) as [Hle|Hlt].
  - specialize (H1 Hle). inversion H1 as [|A B l1 l2 HA Hl]; subst. inversion Hl; subst. split; [discriminate|]. intros C [<-|[]]. apply (stochastic_ext n ident); [now apply eqm_sym|apply stochastic_ident].
  - destruct (H2 Hlt) as [HL Hk]. split; [intros ->; cbn in HL; lia|]. intros A HA. apply (In_nth _ _ ident) in HA. destruct HA as (k & Hkl & <-). apply (stochastic_ext n (f k)); [apply eqm_sym, Hk; lia|apply Hf; lia].
Qed.
Theorem C39_end_to_end : forall n ts lapf E Z P lamda a b a' b' fixt sparse save rev_time force,
  laplacians_ok n ts lapf -> StronglySorted Qclt ts -> expm_ok n E -> (0 <= lamda)%num ->
  exists st ka kb Ls l v,
    run n ts lapf E Z P [CLap a b; CInter (Some lamda) a' b' fixt sparse; CTrans lamda save rev_time force None] tn0 = Some st /\
    lapf a b = Some (ka, kb, Ls) /\ aget qeqb (t_inter st) lamda = Some (sparse, l) /\ aget qeqb (t_T st) lamda = Some v /\
    one_per_step n ka kb (fun k => E (step_length ts fixt ka k * lamda)%num (nth k Ls ident)) l /\ (forall A, In A l -> stochastic n A) /\
    product_of n save (in_order rev_time l) v /\ (forall A, held v A -> stochastic n A).
Proof.
  intros n ts lapf E Z P x a b a' b' fixt sparse sv rv fc HL HS HE Hx. destruct (HL a b) as (ka & kb & Ls & EL & Hkb & HLs & HW).
  destruct (inter_matrices_spec n E ts fixt x ka kb Ls Hkb HLs) as (l & EI & _). pose proof (inter_per_step n E ts fixt x ka kb Ls l HE Hkb HLs EI) as HP.
  destruct (per_step_stochastic n ka kb _ l HP) as [Hne Hst].
  { intros k Hk. apply (proj1 HE); [|now apply HW]. apply qmult_nonneg; [|exact Hx]. apply sorted_step; [exact HS|lia]. }
  set (st1 := set_inter (set_lap tn0 (Some (ka, kb, Ls))) [(x, (sparse, l))]).
  assert (HI : aget qeqb (t_inter st1) x = Some (sparse, l)). { unfold st1. cbn. now destruct (qeqb_spec x x). }
  destruct (C39_products n Z x sv rv fc st1 sparse l HI Hne Hst eq_refl) as (st' & v & HC & HT & Hv & Hs).
  exists st', ka, kb, Ls, l, v. cbn [run do_call]. unfold compute_lap. rewrite EL. unfold compute_inter, ensure_lap. cbn [t_lap set_lap the_lamda t_inter tn0 aget]. rewrite EI. change (aset qeqb [] x (sparse, l)) with [(x, (sparse, l))]. fold tn0. fold st1. rewrite HC.
  destruct (compute_trans_spec n Z x sv rv fc None st1 st' HC) as (_ & _ & _ & _ & _ & s' & l' & HI' & [[HT' _]|(_ & HI2 & _)]); [exfalso; apply HT'; reflexivity|].
  split; [reflexivity|]. split; [reflexivity|]. split; [rewrite HI2, get_same; rewrite HI in HI'; injection HI' as <- <-; reflexivity|]. repeat (split; [assumption|]). assumption.
Qed.
(** a network of three nodes, with a window of two steps *)
Definition net39 : net := mkNet [(0, ev 0 1 0 1); (1, ev 1 2 1 3)] [0; 1; 2].
Example C39_applies : make_net 0 true false [0; 1] [1; 2] [qn 0; qn 1] [qn 1; qn 3] = Some net39 /\ rows net39 <> [] /\ ids_ok net39 = true /\ no_self_contact (rows net39) /\
  is_time_grid (rows net39) (sorted_grid (rows net39)) /\ expm_ok 3 Estep /\
  match compute_laplacians net39 (sorted_grid (rows net39)) None None with Some (ka, kb, _) => kb - ka = 2 | None => False end.
Proof. split; [reflexivity|]. split; [discriminate|]. split; [reflexivity|]. split; [intros e; in_cases; cbn; lia|]. split; [apply grid_exists|]. split; [apply Estep_ok|]. vm_compute. reflexivity. Qed.

(** * C40: a new window *)
Definition C40_statement : Prop := forall n ts lapf E Z P h lamda a b fixt sparse st, laplacians_ok n ts lapf -> StronglySorted Qclt ts -> expm_ok n E ->
  run n ts lapf E Z P (h ++ [CInter (Some lamda) a b fixt sparse]) tn0 = Some st ->
  exists wa wb ka kb Ls s l, window_of (h ++ [CInter (Some lamda) a b fixt sparse]) = Some (wa, wb) /\ lapf wa wb = Some (ka, kb, Ls) /\
    aget qeqb (t_inter st) lamda = Some (s, l) /\ one_per_step n ka kb (fun k => E (step_length ts fixt ka k * lamda)%num (nth k Ls ident)) l.
Definition lap39 := compute_laplacians net39 (sorted_grid (rows net39)).
Lemma lap39_ok : laplacians_ok 3 (times (rows net39)) lap39 /\ StronglySorted Qclt (times (rows net39)).
Proof.
  destruct C39_applies as (H1 & H2 & H3 & H4 & H5 & _). assert (E : num_nodes_of net39 = 3) by (vm_compute; reflexivity). rewrite <- E.
  exact (C39_network_laplacians 0 true [0; 1] [1; 2] [qn 0; qn 1] [qn 1; qn 3] net39 _ H1 H2 H3 H4 H5).
Qed.
Definition hist40 : list call := [CLap (Some (qn 0)) (Some (qn 1)); CInter (Some 1%num) None None false false; CLap (Some (qn 1)) (Some (qn 3))].
Theorem C40_new_window_refuted : ~ C40_statement.
Proof.
  intros H. set (h := hist40 ++ [CInter (Some 1%num) None None false false]).
  assert (E1 : match run 3 (times (rows net39)) lap39 Estep (zeroed 3) (fun A => A) h tn0 with Some st => match aget qeqb (t_inter st) 1%num with Some (_, l) => Some (length l, qeqb (nth 0 l ident 0 1) 0%num) | None => None end | None => None end = Some (1, false)) by (vm_compute; reflexivity).
  assert (E2 : match lap39 (Some (qn 1)) (Some (qn 3)) with Some (ka, kb, Ls) => Some (ka, kb, qeqb (nth 0 Ls ident 0 1) 0%num) | None => None end = Some (1, 2, true)) by (vm_compute; reflexivity).
  destruct (run 3 (times (rows net39)) lap39 Estep (zeroed 3) (fun A => A) h tn0) as [st|] eqn:ER; [|discriminate E1].
  destruct (H 3 (times (rows net39)) lap39 Estep (zeroed 3) (fun A => A) hist40 1%num None None false false st (proj1 lap39_ok) (proj2 lap39_ok) (Estep_ok 3) ER) as (wa & wb & ka & kb & Ls & s & l & HW & HL & HI & HO).
  injection HW as <- <-. rewrite HL in E2. rewrite HI in E1. injection E1 as E1 E1'. injection E2 as -> -> E2. destruct (proj2 HO ltac:(lia)) as [_ HK]. specialize (HK 0 ltac:(lia) 0 1 ltac:(lia) ltac:(lia)).
  destruct (qeqb_spec (nth 0 l ident 0 1) 0%num) as [_|Hne]; [discriminate|]. apply Hne. rewrite HK. apply (reflect_iff _ _ (qeqb_spec _ _)) in E2. unfold Estep, mminus, mscal. rewrite E2. change (ident 0 1) with 0%num. ring.
Qed.
(** What holds: the matrices of a lamda are those of the window in force when that lamda was
    first used; in particular a new lamda uses the current window. *)
Theorem C40_first_window_partial : forall n ts lapf E Z P h st lamda sparse l, laplacians_ok n ts lapf -> expm_ok n E -> without_tol h ->
  run n ts lapf E Z P h tn0 = Some st -> aget qeqb (t_inter st) lamda = Some (sparse, l) ->
  exists h1 x a b fixt h2 st1 wa wb ka kb Ls, h = h1 ++ CInter x a b fixt sparse :: h2 /\ the_lamda ts x = Some lamda /\
    run n ts lapf E Z P h1 tn0 = Some st1 /\ aget qeqb (t_inter st1) lamda = None /\
    window_of (h1 ++ [CInter x a b fixt sparse]) = Some (wa, wb) /\ lapf wa wb = Some (ka, kb, Ls) /\
    one_per_step n ka kb (fun k => E (step_length ts fixt ka k * lamda)%num (nth k Ls ident)) l.
Proof.
  intros n ts lapf E Z P h st y s l HL HE Hw HR HI. destruct (inter_origin n ts lapf E Z P h st y s l Hw HR HI) as (h1 & x & a & b & f & h2 & st1 & Eh & Ey & Hr & Hn & wa & wb & [[ka kb] Ls] & HW & Hlap & HM).
  exists h1, x, a, b, f, h2, st1, wa, wb, ka, kb, Ls. repeat (split; [assumption|]). destruct (HL wa wb) as (ka' & kb' & Ls' & E' & H1 & H2 & _). rewrite Hlap in E'. injection E' as <- <- <-. now apply inter_per_step.
Qed.
Theorem C40_new_lamda_partial : forall n ts lapf E Z P h st0 lamda a b fixt sparse st, laplacians_ok n ts lapf -> expm_ok n E ->
  run n ts lapf E Z P h tn0 = Some st0 -> aget qeqb (t_inter st0) lamda = None ->
  run n ts lapf E Z P (h ++ [CInter (Some lamda) a b fixt sparse]) tn0 = Some st ->
  exists wa wb ka kb Ls l, window_of (h ++ [CInter (Some lamda) a b fixt sparse]) = Some (wa, wb) /\ lapf wa wb = Some (ka, kb, Ls) /\
    aget qeqb (t_inter st) lamda = Some (sparse, l) /\ one_per_step n ka kb (fun k => E (step_length ts fixt ka k * lamda)%num (nth k Ls ident)) l.
Proof.
  intros n ts lapf E Z P h st0 y a b f s st HL HE H0 Hn HR. pose proof (lap_window n ts lapf E Z P _ st HR) as (HW & _). rewrite run_app, H0 in HR. cbn [run do_call] in HR. destruct (compute_inter n ts lapf E (Some y) a b f s st0) as [st'|] eqn:EC; [|discriminate]. injection HR as <-.
  destruct (compute_inter_spec n ts lapf E _ _ _ _ _ _ _ EC) as (y' & Ey & _ & _ & _ & _ & _ & _ & Hl & [[Hc _]|(_ & [[ka kb] Ls] & l & Hlap & HM & HI)]); injection Ey as <-; [contradiction|].
  destruct (window_of (h ++ [CInter (Some y) a b f s])) as [[wa wb]|]; [|congruence]. exists wa, wb, ka, kb, Ls, l. split; [reflexivity|]. rewrite Hlap in HW. split; [congruence|]. split; [rewrite HI; apply get_same|].
  destruct (HL wa wb) as (ka' & kb' & Ls' & E' & H1 & H2 & _). rewrite <- HW in E'. injection E' as <- <- <-. now apply inter_per_step.
Qed.
Example C40_applies : exists st0 st, run 3 (times (rows net39)) lap39 Estep (zeroed 3) (fun A => A) hist40 tn0 = Some st0 /\ aget qeqb (t_inter st0) (qn 2) = None /\
  run 3 (times (rows net39)) lap39 Estep (zeroed 3) (fun A => A) (hist40 ++ [CInter (Some (qn 2)) None None false true]) tn0 = Some st /\ without_tol hist40.
Proof.
  assert (E1 : match run 3 (times (rows net39)) lap39 Estep (zeroed 3) (fun A => A) hist40 tn0 with Some st => match aget qeqb (t_inter st) (qn 2) with None => 1 | Some _ => 0 end | None => 0 end = 1) by (vm_compute; reflexivity).
  assert (E2 : match run 3 (times (rows net39)) lap39 Estep (zeroed 3) (fun A => A) (hist40 ++ [CInter (Some (qn 2)) None None false true]) tn0 with Some _ => 1 | None => 0 end = 1) by (vm_compute; reflexivity).
  destruct (run 3 _ _ _ _ _ hist40 tn0) as [st0|]; [|discriminate]. destruct (run 3 _ _ _ _ _ (hist40 ++ _) tn0) as [st|]; [|discriminate]. exists st0, st. split; [reflexivity|]. split; [destruct (aget qeqb (t_inter st0) (qn 2)); [discriminate|reflexivity]|]. split; [reflexivity|]. intros x s r f t H. cbn in H. intuition discriminate.
Qed.

(** * C41: differences *)
Lemma qabs_le a b : (- b <= a)%num -> (a <= b)%num -> (qabs a <= b)%num.
Proof. intros H1 H2. unfold qabs. destruct (qltb_spec a 0%num); qlra. Qed.
(** entries differ by at most [e] *)
Definition close (n : nat) (e : num) (A B : mat) : Prop := forall i j, i < n -> j < n -> (qabs (A i j - B i j) <= e)%num.
(** With the default options (round_zeros and tol = 1e-8), what is loaded is within 1/2 of
    what was computed. *)
Definition C41_statement : Prop := forall n lamda tol st f st' s l, (0 <= tol)%num -> (tol <= qf 1 100000000)%num ->
  aget qeqb (t_inter st) lamda = Some (s, l) -> (forall A, In A l -> stochastic n A) -> aget qeqb (t_delta st) lamda = None ->
  save_inter_T (zeroed n) (Some lamda) true tol true st = Some (f, st') ->
  exists l', aget qeqb (load_inter_T f) lamda = Some l' /\ Forall2 (close n (qf 1 2)) l' l.
Definition swap01 : mat := fun i j => if i + j =? 1 then 1%num else 0%num.
Definition st41 : tn := set_inter tn0 [(1%num, (false, [ident; swap01]))].
Lemma two_cases (Q : mat -> Prop) A B : Q A -> Q B -> forall C, In C [A; B] -> Q C.
Proof. intros H1 H2 C [<-|[<-|[]]]; assumption. Qed.
Lemma swap01_stochastic : stochastic 2 swap01.
Proof.
  split.
  - intros i j _ _. unfold swap01. destruct (i + j =? 1); discriminate.
  - intros i Hi. assert (Hc : i = 0 \/ i = 1) by lia. destruct Hc as [-> | ->]; vm_compute; now apply Qc_is_canon.
Qed.
Theorem C41_negative_differences_refuted : ~ C41_statement.
Proof.
  intros H. assert (E1 : match save_inter_T (zeroed 2) (Some 1%num) true (qf 1 100000000) true st41 with Some (f, _) => match aget qeqb (load_inter_T f) 1%num with Some l => Some (length l, qeqb (nth 1 l ident 0 0) 1%num) | None => None end | None => None end = Some (2, true)) by (vm_compute; reflexivity).
  destruct (save_inter_T (zeroed 2) (Some 1%num) true (qf 1 100000000) true st41) as [[f st']|] eqn:ES; [|discriminate E1].
  destruct (H 2 1%num (qf 1 100000000) st41 f st' false [ident; swap01] ltac:(discriminate) ltac:(apply Qcle_refl) eq_refl (two_cases _ _ _ (stochastic_ident 2) swap01_stochastic) eq_refl ES) as (l' & HL & HF).
  rewrite HL in E1. injection E1 as _ E1. inversion HF as [|A B l1 l2 _ HF2]; subst. inversion HF2 as [|A2 B2 l3 l4 HC _]; subst. cbn [nth] in E1. apply (reflect_iff _ _ (qeqb_spec _ _)) in E1. specialize (HC 0 0 ltac:(lia) ltac:(lia)). rewrite E1 in HC. vm_compute in HC. now apply HC.
Qed.
(** What holds: without rounding the sequence is loaded exactly, from both formats. *)
Theorem C41_exact_partial : forall n Z lamda tol save_delta st f st' s l, aget qeqb (t_inter st) lamda = Some (s, l) -> aget qeqb (t_delta st) lamda = None ->
  save_inter_T Z (Some lamda) false tol save_delta st = Some (f, st') ->
  exists l', aget qeqb (load_inter_T f) lamda = Some l' /\ Forall2 (eqm n) l' l.
Proof.
  intros n Z x tol sd st f st' s l HI HD HS. unfold save_inter_T in HS. destruct (t_inter st) as [|e es] eqn:ET; [discriminate|]. rewrite <- ET in *. clear ET e es. destruct sd.
  - rewrite HI in HS. destruct s; [discriminate|]. destruct l as [|A l]; [discriminate|]. unfold compute_delta in HS. rewrite HI, HD in HS. cbn [t_delta set_delta] in HS. rewrite get_same in HS. injection HS as <- <-.
    cbn [load_inter_T map aget fst snd]. destruct (qeqb_spec x x) as [_|]; [|contradiction]. eexists. split; [reflexivity|]. unfold rounded. rewrite map_id. apply cumulate_mdiffs.
  - cbn [save_sparse] in HS. rewrite HI in HS. destruct s; [|discriminate]. destruct l as [|A l]; [discriminate|]. injection HS as <- <-. cbn [load_inter_T aget]. destruct (qeqb_spec x x) as [_|]; [|contradiction]. eexists. split; [reflexivity|]. unfold rounded. rewrite map_id. clear. induction (A :: l); constructor; [apply eqm_refl|assumption].
Qed.
(** and with rounding, SparseStochMat matrices are loaded up to the tolerance *)
Lemma zeroing_close n Z tol A : zeroing n Z -> (0 <= tol)%num -> stochastic n A -> close n tol (Z tol A) A.
Proof.
  intros HZ Ht HA i j Hi Hj. destruct (HZ tol A Ht i j Hi Hj) as [E|(E & a & b & Ha & Hb & Hle)]; rewrite E.
  - apply qabs_le; generalize (A i j); qlra.
  - pose proof (proj1 HA i j Hi Hj) as H0. pose proof (stochastic_le1 n A a b HA Ha Hb) as H1. pose proof (proj1 HA a b Ha Hb) as H2.
    assert (HQ : qabs (A a b) = A a b). { unfold qabs. destruct (qltb_spec (A a b) 0%num) as [Hx|_]; [|reflexivity]. exfalso. revert Hx H2. generalize (A a b). qlra. }
    rewrite HQ in Hle. assert (H3 : (A i j <= tol)%num). { apply Qcle_trans with (tol * A a b)%num; [exact Hle|]. assert (H4 : (0 <= tol * (1 - A a b))%num) by (apply qmult_nonneg; [exact Ht|revert H1; generalize (A a b); qlra]). revert H4. generalize (A a b). intros y. qnra. }
    apply qabs_le; revert H0 H3; generalize (A i j); qlra.
Qed.
Theorem C41_rounded_sparse_partial : forall n Z lamda tol st f st' s l, zeroing n Z -> (0 <= tol)%num -> aget qeqb (t_inter st) lamda = Some (s, l) -> (forall A, In A l -> stochastic n A) ->
  save_inter_T Z (Some lamda) true tol false st = Some (f, st') ->
  exists l', aget qeqb (load_inter_T f) lamda = Some l' /\ Forall2 (close n tol) l' l.
Proof.
  intros n Z x tol st f st' s l HZ Ht HI Hl HS. unfold save_inter_T in HS. destruct (t_inter st) as [|e es] eqn:ET; [discriminate|]. rewrite <- ET in *. clear ET e es.
  cbn [save_sparse] in HS. rewrite HI in HS. destruct s; [|discriminate]. destruct l as [|A l]; [discriminate|]. injection HS as <- <-. cbn [load_inter_T aget]. destruct (qeqb_spec x x) as [_|]; [|contradiction]. eexists. split; [reflexivity|]. unfold rounded. change (Forall2 (close n tol) (map (fun A0 => Z tol A0) (A :: l)) (A :: l)). revert Hl. clear -HZ Ht. generalize (A :: l). induction l0 as [|B l0 IH]; intros Hl; constructor.
  - apply zeroing_close; [assumption|assumption|]. apply Hl. now left.
  - apply IH. intros C HC. apply Hl. now right.
Qed.
(** without a lamda, the SparseStochMat matrices of all are saved, in one file *)
Lemma save_sparse_all Z tol xs : forall st d st', save_sparse Z false tol xs st = Some (d, st') ->
  map fst d = xs /\ forall x, In x xs -> exists l, aget qeqb (t_inter st) x = Some (true, l) /\ aget qeqb d x = Some l.
Proof.
  induction xs as [|y r IH]; intros st d st' H; cbn [save_sparse] in H; [injection H as <- _; split; [reflexivity|intros x []]|].
  destruct (aget qeqb (t_inter st) y) as [[[] [|A l]]|] eqn:EY; try discriminate. destruct (save_sparse Z false tol r _) as [[d' st2]|] eqn:ER; [|discriminate]. injection H as <- _.
  destruct (IH _ _ _ ER) as [E HI]. cbn [t_inter set_inter rounded] in HI. unfold rounded in HI |- *. rewrite map_id in HI |- *. split; [cbn; now rewrite E|]. intros x Hx. cbn [aget]. destruct (qeqb_spec x y) as [-> |Hne].
  - exists (A :: l). now split.
  - destruct Hx as [Hx|Hx]; [congruence|]. destruct (HI x Hx) as (l' & H1 & H2). exists l'. split; [|exact H2]. now rewrite get_other in H1.
Qed.
Theorem C41_all_partial : forall Z tol st f st', save_inter_T Z None false tol false st = Some (f, st') ->
  map fst (load_inter_T f) = map fst (t_inter st) /\ forall lamda s l, aget qeqb (t_inter st) lamda = Some (s, l) -> s = true /\ aget qeqb (load_inter_T f) lamda = Some l.
Proof.
  intros Z tol st f st' HS. unfold save_inter_T in HS. destruct (t_inter st) as [|e es] eqn:ET; [discriminate|]. rewrite <- ET in *. clear ET e es.
  destruct (save_sparse Z false tol (map fst (t_inter st)) st) as [[d st2]|] eqn:ER; [|discriminate]. injection HS as <- _. destruct (save_sparse_all _ _ _ _ _ _ ER) as [E HI]. cbn [load_inter_T]. split; [exact E|].
  intros x s l Hx. assert (Hin : In x (map fst (t_inter st))). { clear - Hx. induction (t_inter st) as [|[k v] d IH]; [discriminate|]. cbn [aget map fst] in *. destruct (qeqb_spec x k) as [-> |]; [now left|right; now apply IH]. }
  destruct (HI x Hin) as (l' & H1 & H2). rewrite Hx in H1. injection H1 as -> ->. now split.
Qed.
Example C41_applies : match save_inter_T (zeroed 2) (Some 1%num) false (qf 1 100000000) true st41 with Some _ => True | None => False end /\
  match save_inter_T (zeroed 2) (Some 1%num) true (qf 1 100000000) false (set_inter tn0 [(1%num, (true, [ident; swap01]))]) with Some _ => True | None => False end /\
  match save_inter_T (zeroed 2) None false (qf 1 100000000) false (set_inter tn0 [(1%num, (true, [ident; swap01])); (2%num, (true, [swap01]))]) with Some _ => True | None => False end /\
  zeroing 2 (zeroed 2) /\ aget qeqb (t_delta st41) 1%num = None.
Proof. split; [vm_compute; exact I|]. split; [vm_compute; exact I|]. split; [vm_compute; exact I|]. split; [apply zeroed_zeroing|reflexivity]. Qed.

(** * C42: saving *)
Definition C42_statement : Prop := forall n lamda round tol save_delta st f st', (0 <= tol)%num -> (tol < 1)%num ->
  save_inter_T (zeroed n) lamda round tol save_delta st = Some (f, st') ->
  forall y, match aget qeqb (t_inter st) y, aget qeqb (t_inter st') y with
            | Some (s, l), Some (s', l') => s = s' /\ Forall2 (eqm n) l l'
            | None, None => True
            | _, _ => False
            end.
Definition lazy (e : num) : mat := fun i j => if i =? j then (1 - e)%num else e.
Lemma lazy_stochastic e : (0 <= e)%num -> (e <= 1)%num -> stochastic 2 (lazy e).
Proof.
  intros H0 H1. split.
  - intros i j _ _. unfold lazy. destruct (i =? j); qlra.
  - intros i Hi. unfold sumN, lazy. cbn [seq sumL fold_right map]. assert (Hc : i = 0 \/ i = 1) by lia. destruct Hc as [-> | ->]; cbn; ring.
Qed.
Definition st42 : tn := set_inter tn0 [(1%num, (true, [lazy (qf 1 1000)]))].
Theorem C42_saving_rounds_refuted : ~ C42_statement.
Proof.
  intros H. assert (E1 : match save_inter_T (zeroed 2) (Some 1%num) true (qf 1 100) false st42 with Some (_, st') => match aget qeqb (t_inter st') 1%num with Some (_, l) => Some (qeqb (nth 0 l ident 0 1) 0%num) | None => None end | None => None end = Some true) by (vm_compute; reflexivity).
  destruct (save_inter_T (zeroed 2) (Some 1%num) true (qf 1 100) false st42) as [[f st']|] eqn:ES; [|discriminate E1].
  specialize (H 2 (Some 1%num) true (qf 1 100) false st42 f st' ltac:(discriminate) ltac:(reflexivity) ES 1%num). destruct (aget qeqb (t_inter st') 1%num) as [[s l]|]; [|discriminate E1].
  change (aget qeqb (t_inter st42) 1%num) with (Some (true, [lazy (qf 1 1000)])) in H. destruct H as [_ HF]. inversion HF as [|A B l1 l2 HC _]; subst. cbn [nth] in E1. injection E1 as E1. apply (reflect_iff _ _ (qeqb_spec _ _)) in E1. specialize (HC 0 1 ltac:(lia) ltac:(lia)). rewrite E1 in HC. vm_compute in HC. discriminate HC.
Qed.
Lemma Forall2_refl_eqm n l : Forall2 (eqm n) l l.
Proof. induction l; constructor; [apply eqm_refl|assumption]. Qed.
Lemma save_sparse_same Z tol lamdas : forall st d st', save_sparse Z false tol lamdas st = Some (d, st') -> forall y, aget qeqb (t_inter st') y = aget qeqb (t_inter st) y.
Proof.
  induction lamdas as [|x r IH]; intros st d st' H y; cbn [save_sparse] in H; [injection H as _ <-; reflexivity|]. destruct (aget qeqb (t_inter st) x) as [[[] [|A l]]|] eqn:EX; try discriminate.
  destruct (save_sparse Z false tol r _) as [[d' st2]|] eqn:ER; [|discriminate]. injection H as _ <-. rewrite (IH _ _ _ ER y). cbn [t_inter set_inter rounded]. rewrite map_id. destruct (qeqb_spec y x) as [->|Hne]; [now rewrite get_same, EX|now rewrite get_other].
Qed.
Lemma save_sparse_T Z tol lamdas : forall st d st', save_sparse Z false tol lamdas st = Some (d, st') -> t_T st' = t_T st.
Proof.
  induction lamdas as [|z r IH]; intros st d st' H; cbn [save_sparse] in H; [injection H as _ <-; reflexivity|]. destruct (aget qeqb (t_inter st) z) as [[[] [|A l]]|]; try discriminate.
  destruct (save_sparse Z false tol r _) as [[d' st3]|] eqn:ER; [|discriminate]. injection H as _ <-. now rewrite (IH _ _ _ ER).
Qed.
Theorem C42_saving_partial : forall n Z lamda round tol save_delta st f st', round = false \/ save_delta = true ->
  save_inter_T Z lamda round tol save_delta st = Some (f, st') ->
  t_T st' = t_T st /\
  forall y, match aget qeqb (t_inter st) y, aget qeqb (t_inter st') y with
            | Some (s, l), Some (s', l') => s = s' /\ Forall2 (eqm n) l l'
            | None, None => True
            | _, _ => False
            end.
Proof.
  intros n Z x rd tol sd st f st' Hc HS.
  assert (HE : t_T st' = t_T st /\ forall y, aget qeqb (t_inter st') y = aget qeqb (t_inter st) y).
  { unfold save_inter_T in HS. destruct (t_inter st) as [|e es] eqn:ET; [discriminate|]. rewrite <- ET in *. clear ET e es. destruct sd.
    - destruct x as [x|]; [|discriminate]. destruct (aget qeqb (t_inter st) x) as [[[] [|A l]]|] eqn:EX; try discriminate. destruct (aget qeqb (t_delta (compute_delta Z x rd tol st)) x); [|discriminate]. injection HS as _ <-. unfold compute_delta. rewrite EX. destruct (aget qeqb (t_delta st) x); split; reflexivity.
    - destruct Hc as [-> |]; [|discriminate]. destruct (save_sparse Z false tol _ st) as [[d st2]|] eqn:ER; [|discriminate]. injection HS as _ <-. split; [|intros y; eapply save_sparse_same; exact ER].
      eapply save_sparse_T; exact ER. }
  destruct HE as [H1 H2]. split; [exact H1|]. intros y. rewrite H2. destruct (aget qeqb (t_inter st) y) as [[s l]|]; [|exact I]. split; [reflexivity|apply Forall2_refl_eqm].
Qed.
Example C42_applies : match save_inter_T (zeroed 2) None false (qf 1 100) false st42 with Some _ => True | None => False end /\
  match save_inter_T (zeroed 2) (Some 1%num) true (qf 1 100) true st41 with Some _ => True | None => False end.
Proof. split; vm_compute; exact I. Qed.

(** * C43: linear approximation *)
Lemma lipschitz_pieces x y z w t s ts : (0 <= x)%num -> (x <= 1)%num -> (0 <= y)%num -> (y <= 1)%num -> (0 <= z)%num -> (z <= 1)%num -> (0 < w)%num -> (t <= s)%num ->
  (forall f g, f = ((1 - t) * x + t * y)%num -> g = ((1 - s) * x + s * y)%num -> (- ((1 + w) * (s - t)) <= g - f /\ g - f <= (1 + w) * (s - t))%num) /\
  (forall f g, f = ((1 - (t - ts) * w) * y + (t - ts) * w * z)%num -> g = ((1 - (s - ts) * w) * y + (s - ts) * w * z)%num -> (- ((1 + w) * (s - t)) <= g - f /\ g - f <= (1 + w) * (s - t))%num).
Proof.
  intros Hx0 Hx1 Hy0 Hy1 Hz0 Hz1 Hw Hts. assert (Hd : (0 <= s - t)%num) by qlra. assert (Hwd : (0 <= w * (s - t))%num) by (apply qmult_nonneg; [qlra|exact Hd]). split; intros f g -> ->.
  - assert (H1 : (0 <= (1 - (y - x)) * (s - t))%num) by (apply qmult_nonneg; [qlra|exact Hd]). assert (H2 : (0 <= (1 + (y - x)) * (s - t))%num) by (apply qmult_nonneg; [qlra|exact Hd]).
    replace ((1 - s) * x + s * y - ((1 - t) * x + t * y))%num with ((y - x) * (s - t))%num by ring. replace ((1 + w) * (s - t))%num with ((s - t) + w * (s - t))%num by ring. replace ((1 - (y - x)) * (s - t))%num with ((s - t) - (y - x) * (s - t))%num in H1 by ring. replace ((1 + (y - x)) * (s - t))%num with ((s - t) + (y - x) * (s - t))%num in H2 by ring. split; qlra.
  - assert (H1 : (0 <= (1 - (z - y)) * (w * (s - t)))%num) by (apply qmult_nonneg; [qlra|exact Hwd]). assert (H2 : (0 <= (1 + (z - y)) * (w * (s - t)))%num) by (apply qmult_nonneg; [qlra|exact Hwd]).
    replace ((1 - (s - ts) * w) * y + (s - ts) * w * z - ((1 - (t - ts) * w) * y + (t - ts) * w * z))%num with ((z - y) * (w * (s - t)))%num by ring. replace ((1 + w) * (s - t))%num with ((s - t) + w * (s - t))%num by ring.
    replace ((1 - (z - y)) * (w * (s - t)))%num with (w * (s - t) - (z - y) * (w * (s - t)))%num in H1 by ring. replace ((1 + (z - y)) * (w * (s - t)))%num with (w * (s - t) + (z - y) * (w * (s - t)))%num in H2 by ring. split; qlra.
Qed.
Lemma lin_lipschitz n T Pi t_s t s A B i j : stochastic n T -> stochastic n Pi -> (1 < t_s)%num -> (t <= s)%num -> lin_approx T t Pi t_s = Some A -> lin_approx T s Pi t_s = Some B -> i < n -> j < n ->
  (- ((1 + 1 / (t_s - 1)) * (s - t)) <= B i j - A i j /\ B i j - A i j <= (1 + 1 / (t_s - 1)) * (s - t))%num.
Proof.
  intros HT HP Hts Hle HA HB Hi Hj. apply lin_approx_cases in HA, HB. destruct HA as [Ht HA], HB as [Hs HB]. set (w := (1 / (t_s - 1))%num).
  assert (Hw : (0 < w)%num) by (unfold w, Qcdiv; rewrite Qcmult_1_l; apply qinv_pos; qlra).
  assert (Hww : ((t_s - 1) * w = 1)%num). { unfold w. field. intros E0. assert (E1 : (t_s - 1 = 0)%num) by exact E0. qlra. }
  assert (Hmid : forall r, mscal (1 / (1 - t_s))%num (mplus (mscal (r - t_s)%num T) (mscal (1 - r)%num Pi)) i j = ((1 - (r - 1) * w) * T i j + (r - 1) * w * Pi i j)%num).
  { intros r. rewrite lin_middle by exact Hts. unfold mplus, mscal, w. unfold Qcdiv. ring. }
  assert (Hx0 : (0 <= ident i j)%num) by (now apply stochastic_ident with (n := n)). assert (Hx1 : (ident i j <= 1)%num) by (now apply (stochastic_le1 n _ i j (stochastic_ident n))).
  assert (Hy0 : (0 <= T i j)%num) by (now apply HT). assert (Hy1 : (T i j <= 1)%num) by (now apply (stochastic_le1 n)).
  assert (Hz0 : (0 <= Pi i j)%num) by (now apply HP). assert (Hz1 : (Pi i j <= 1)%num) by (now apply (stochastic_le1 n)).
  assert (E1 : forall r, mplus (mscal (1 - r)%num ident) (mscal r T) i j = ((1 - r) * ident i j + r * T i j)%num) by reflexivity.
  destruct HA as [[Ht1 ->]|[(Ht1 & Ht2 & ->)|(Ht1 & Ht2 & ->)]]; destruct HB as [[Hs1 ->]|[(Hs1 & Hs2 & ->)|(Hs1 & Hs2 & ->)]]; try (exfalso; qlra); rewrite ?E1, ?Hmid; clear E1 Hmid HT HP; set (x := ident i j) in *; set (y := T i j) in *; set (z := Pi i j) in *; clearbody x y z w.
  - destruct (lipschitz_pieces x y z w t s 1%num) as [H1 _]; try assumption. exact (H1 _ _ eq_refl eq_refl).
  - destruct (lipschitz_pieces x y z w t 1%num 1%num) as [H1 _]; try assumption. destruct (lipschitz_pieces x y z w 1%num s 1%num) as [_ H2]; try assumption; [qlra|]. specialize (H1 _ _ eq_refl eq_refl). specialize (H2 _ _ eq_refl eq_refl).
    replace ((1 - 1) * x + 1 * y)%num with y in H1 by ring. replace ((1 - (1 - 1) * w) * y + (1 - 1) * w * z)%num with y in H2 by ring. replace ((1 + w) * (s - t))%num with ((1 + w) * (s - 1) + (1 + w) * (1 - t))%num by ring. split; qlra.
  - destruct (lipschitz_pieces x y z w t 1%num 1%num) as [H1 _]; try assumption. destruct (lipschitz_pieces x y z w 1%num t_s 1%num) as [_ H2]; try assumption; [qlra|]. specialize (H1 _ _ eq_refl eq_refl). specialize (H2 _ _ eq_refl eq_refl).
    replace ((1 - 1) * x + 1 * y)%num with y in H1 by ring. replace ((1 - (1 - 1) * w) * y + (1 - 1) * w * z)%num with y in H2 by ring. rewrite Hww in H2. replace ((1 - 1) * y + 1 * z)%num with z in H2 by ring.
    assert (H3 : (0 <= (1 + w) * (s - t_s))%num) by (apply qmult_nonneg; qlra). replace ((1 + w) * (s - t))%num with ((1 + w) * (s - t_s) + (1 + w) * (t_s - 1) + (1 + w) * (1 - t))%num by ring. split; qlra.
  - destruct (lipschitz_pieces x y z w t s 1%num) as [_ H2]; try assumption. exact (H2 _ _ eq_refl eq_refl).
  - destruct (lipschitz_pieces x y z w t t_s 1%num) as [_ H2]; try assumption; [qlra|]. specialize (H2 _ _ eq_refl eq_refl). rewrite Hww in H2. replace ((1 - 1) * y + 1 * z)%num with z in H2 by ring.
    assert (H3 : (0 <= (1 + w) * (s - t_s))%num) by (apply qmult_nonneg; qlra). replace ((1 + w) * (s - t))%num with ((1 + w) * (s - t_s) + (1 + w) * (t_s - t))%num by ring. split; qlra.
  - assert (H3 : (0 <= (1 + w) * (s - t))%num) by (apply qmult_nonneg; qlra). split; qlra.
Qed.
Theorem C43_linear_approximation : forall n T Pi t_s, stochastic n T -> stochastic n Pi -> (1 < t_s)%num ->
  (forall t, (t < 0)%num -> lin_approx T t Pi t_s = None) /\
  (forall t, (0 <= t)%num -> exists A, lin_approx T t Pi t_s = Some A /\ stochastic n A /\
     (t = 0%num -> eqm n A ident) /\ (t = 1%num -> eqm n A T) /\ ((t_s <= t)%num -> eqm n A Pi) /\
     (* Lipschitz, hence continuous *)
     forall s B, (t <= s)%num -> lin_approx T s Pi t_s = Some B -> close n ((1 + 1 / (t_s - 1)) * (s - t))%num B A).
Proof.
  intros n T Pi t_s HT HP Hts. split.
  - intros t Ht. unfold lin_approx. destruct (qltb_spec t 0%num); [reflexivity|contradiction].
  - intros t Ht. destruct (lin_approx_defined T t Pi t_s Ht) as [A HA]. exists A. split; [exact HA|]. split; [now apply (lin_approx_stochastic n T t Pi t_s)|]. pose proof (lin_approx_cases T t Pi t_s A HA) as [_ HC]. repeat split.
    + intros ->. destruct HC as [[_ ->]|[(H & _)|(H & _)]]; [|qlra|qlra]. intros i j _ _. unfold mplus, mscal. ring.
    + intros ->. destruct HC as [[_ ->]|[(H & _)|(H & _)]]; [|qlra|qlra]. intros i j _ _. unfold mplus, mscal. ring.
    + intros Hl. destruct HC as [[H ->]|[(_ & H & _)|(_ & _ & ->)]]; [exfalso; qlra|exfalso; qlra|apply eqm_refl].
    + intros s B Hs HB i j Hi Hj. destruct (lin_lipschitz n T Pi t_s t s A B i j) as [H1 H2]; auto. now apply qabs_le.
Qed.
Example C43_applies : stochastic 2 swap01 /\ stochastic 2 (lazy (qf 1 2)) /\ (1 < qn 10)%num.
Proof. split; [apply swap01_stochastic|]. split; [apply lazy_stochastic; discriminate|reflexivity]. Qed.

(** * C44: the stationary matrix *)
Theorem C44_stationary : forall n adj T n_comp lab, csr_ok n T -> no_repetition T -> eqm n (value T) (walk n adj) ->
  (forall i j, i < n -> j < n -> adj i j = adj j i) -> component_labels n (value T) n_comp lab ->
  csr_ok n (stationary_transition n lab T) /\
  let Pi := value (stationary_transition n lab T) in
  stochastic n Pi /\ eqm n (mmul n Pi (value T)) Pi /\
  (forall i j, i < n -> j < n -> ((0 < Pi i j)%num <-> linked n (fun a b => adj a b = true) i j)) /\
  (forall i i' j, i < n -> i' < n -> j < n -> linked n (fun a b => adj a b = true) i i' -> Pi i j = Pi i' j).
Proof.
  intros n adj T nc lab HT Hr HV Hs HC. split; [apply stationary_ok|]. intros Pi.
  assert (HD : forall i, i < n -> 0 < degs_of T i). { intros i Hi. rewrite (degs_nonzeros n T i HT Hr Hi). destruct (walk_nonzeros n adj (value T) i HV Hi) as [-> _]. now apply steps_count. }
  assert (HL : forall i j, i < n -> j < n -> (lab i = lab j <-> linked n (fun a b => adj a b = true) i j)).
  { intros i j Hi Hj. rewrite (proj2 HC i j Hi Hj).
    assert (Hst : forall a b, a < n -> b < n -> value T a b <> 0%num -> a = b \/ adj a b = true). { intros a b Ha Hb H. apply (proj2 (walk_nonzeros n adj (value T) a HV Ha) b Hb) in H. unfold steps_to in H. apply orb_true_iff in H. destruct H as [H|H]; [now right|]. apply andb_true_iff in H. destruct H as [_ H]. apply Nat.eqb_eq in H. now left. }
    assert (Had : forall a b, a < n -> b < n -> adj a b = true -> value T a b <> 0%num). { intros a b Ha Hb H. apply (proj2 (walk_nonzeros n adj (value T) a HV Ha) b Hb). unfold steps_to. now rewrite H. }
    assert (Hlt : forall (R : nat -> nat -> Prop) a b, linked n R a b -> b < n) by (intros R a b H; inversion H; assumption).
    split; intros H; (induction H as [i Hi'|i a b H IH Hb [Hab|Hab]]; [now apply linked_refl| |]); pose proof (Hlt _ _ _ H) as Ha; specialize (IH Hi Ha).
    - destruct (Hst a b Ha Hb Hab) as [<-|E]; [exact IH|]. eapply linked_step; [exact IH|exact Hb|now left].
    - destruct (Hst b a Hb Ha Hab) as [->|E]; [exact IH|]. eapply linked_step; [exact IH|exact Hb|now right].
    - eapply linked_step; [exact IH|exact Hb|left; now apply Had].
    - eapply linked_step; [exact IH|exact Hb|right; now apply Had]. }
  pose proof (stationary_stochastic n lab T HT HD) as HS. split; [exact HS|]. split; [now apply (walk_stationary n adj T nc lab)|]. split.
  - intros i j Hi Hj. rewrite <- (HL i j Hi Hj). unfold Pi. rewrite stationary_value by assumption. destruct (Nat.eqb_spec (lab i) (lab j)) as [E|E]; [|split; [intros H; exfalso; revert H; qlra|contradiction]]. split; [auto|]. intros _.
    unfold Qcdiv. apply qmult_pos; [rewrite <- qn_0; apply qn_lt; auto|]. apply qinv_pos. apply Qclt_le_trans with (qn (degs_of T i)); [rewrite <- qn_0; apply qn_lt; auto|]. rewrite <- (sumN_delta n i (fun k => qn (degs_of T k)) Hi). apply sumL_le. intros k _. destruct (Nat.eqb_spec k i) as [->|]; [rewrite Nat.eqb_refl; apply Qcle_refl|]. destruct (lab k =? lab i); [apply qn_nonneg|apply Qcle_refl].
  - intros i i' j Hi Hi' Hj H. apply (HL i i' Hi Hi') in H. unfold Pi. rewrite !stationary_value by assumption. now rewrite H.
Qed.
(** a path of three nodes and an isolated node *)
Definition path3 (i j : nat) : bool := match i, j with 0, 1 | 1, 0 | 1, 2 | 2, 1 => true | _, _ => false end.
Definition lab44 (i : nat) : nat := if i =? 3 then 1 else 0.
Example C44_applies : csr_ok 4 (csr_of_dense 4 (walk 4 path3)) /\ no_repetition (csr_of_dense 4 (walk 4 path3)) /\ eqm 4 (value (csr_of_dense 4 (walk 4 path3))) (walk 4 path3) /\
  (forall i j, i < 4 -> j < 4 -> path3 i j = path3 j i) /\ component_labels 4 (value (csr_of_dense 4 (walk 4 path3))) 2 lab44 /\
  value (stationary_transition 4 lab44 (csr_of_dense 4 (walk 4 path3))) 0 1 = qf 1 2.
Proof.
  destruct (csr_of_dense_spec 4 (walk 4 path3)) as (H1 & H2 & H3). split; [exact H1|]. split; [exact H3|]. split; [exact H2|]. split; [intros [|[|[|[|i]]]] [|[|[|[|j]]]]; reflexivity|]. split.
  - split; [intros i _; unfold lab44; destruct (i =? 3); lia|].
    assert (Hw : forall a b, a < 4 -> b < 4 -> path3 a b = true -> value (csr_of_dense 4 (walk 4 path3)) a b <> 0%num).
    { intros a b Ha Hb Hp. rewrite (H2 a b Ha Hb). destruct a as [|[|[|[|a]]]], b as [|[|[|[|b]]]]; try discriminate Hp; vm_compute; discriminate. }
    assert (He : forall a b, a < 4 -> b < 4 -> value (csr_of_dense 4 (walk 4 path3)) a b <> 0%num -> lab44 a = lab44 b).
    { intros a b Ha Hb Hp. rewrite (H2 a b Ha Hb) in Hp. destruct a as [|[|[|[|a]]]], b as [|[|[|[|b]]]]; try lia; try reflexivity; exfalso; apply Hp; vm_compute; reflexivity. }
    set (R := fun a b => value (csr_of_dense 4 (walk 4 path3)) a b <> 0%num) in *.
    assert (L01 : linked 4 R 0 1) by (eapply linked_step; [apply linked_refl; lia|lia|left; apply Hw; [lia|lia|reflexivity]]). assert (L02 : linked 4 R 0 2) by (eapply linked_step; [exact L01|lia|left; apply Hw; [lia|lia|reflexivity]]).
    assert (L10 : linked 4 R 1 0) by (eapply linked_step; [apply linked_refl; lia|lia|left; apply Hw; [lia|lia|reflexivity]]). assert (L12 : linked 4 R 1 2) by (eapply linked_step; [apply linked_refl; lia|lia|left; apply Hw; [lia|lia|reflexivity]]).
    assert (L21 : linked 4 R 2 1) by (eapply linked_step; [apply linked_refl; lia|lia|left; apply Hw; [lia|lia|reflexivity]]). assert (L20 : linked 4 R 2 0) by (eapply linked_step; [exact L21|lia|left; apply Hw; [lia|lia|reflexivity]]).
    intros i j Hi Hj. split.
    + intros E. destruct i as [|[|[|[|i]]]], j as [|[|[|[|j]]]]; try lia; try discriminate E; try assumption; apply linked_refl; lia.
    + intros H. assert (Hlt : forall a b, linked 4 R a b -> b < 4) by (intros a b K; inversion K; assumption). induction H as [i Hi'|i a b H IH Hb [Hab|Hab]]; [reflexivity| |]; pose proof (Hlt _ _ H) as Ha; specialize (IH Hi Ha); rewrite IH; [now apply He|symmetry; now apply He].
  - vm_compute. now apply Qc_is_canon.
Qed.

(** * C55: exponentials by parts *)
(** For a series of any length with any coefficients (in particular the Taylor polynomials of
    the exponential): *)
Theorem C55_components : forall c K F G n A n_comp lab big normalize, computes_poly c K F -> applies_poly c K G -> closed_labels n A n_comp lab ->
  (normalize = true -> c 0 = 1%num /\ forall i, i < n -> sumN n (A i) = 0%num) ->
  csr_ok n (subspace_expm F n A n_comp lab None normalize) /\ eqm n (value (subspace_expm F n A n_comp lab None normalize)) (poly n c K A) /\
  csr_ok n (subspace_expm_parallel F G big n A n_comp lab None normalize) /\ eqm n (value (subspace_expm_parallel F G big n A n_comp lab None normalize)) (poly n c K A).
Proof.
  intros c K F G n A nc lab big norm HF HG Hc Hn. destruct (subspace_poly c K F HF n A nc lab norm Hc Hn). destruct (subspace_parallel_poly c K F G HF HG big n A nc lab norm Hc Hn). auto.
Qed.
Theorem C55_laplacian : forall c K F G big comps n L fact dense nproc normalize, computes_poly c K F -> applies_poly c K G -> c 0 = 1%num ->
  (forall m A, component_labels m A (fst (comps m A)) (snd (comps m A))) -> (forall i, i < n -> sumN n (L i) = 0%num) ->
  represents (sparse_lapl_expm F G big comps n L fact dense nproc None normalize) n (poly n c K (mscal (- fact)%num L)).
Proof. apply sparse_lapl_expm_poly. Qed.
(** Taylor polynomial of degree 2 *)
Definition coef (k : nat) : num := match k with 0 | 1 => 1%num | _ => qf 1 2 end.
Definition F55 (m : nat) (A : mat) : mat := poly m coef 2 A.
Definition G55 (m : nat) (A : mat) (v : nat -> num) (a : nat) : num := sumN m (fun b => (poly m coef 2 A a b * v b)%num).
(** labels that exist for every matrix: the smallest linked node *)
Example C55_applies : computes_poly coef 2 F55 /\ applies_poly coef 2 G55 /\ coef 0 = 1%num /\
  (let A := mminus (walk 4 path3) ident in closed_labels 4 A 2 lab44 /\ (forall i, i < 4 -> sumN 4 (A i) = 0%num) /\ A 0 1 <> 0%num).
Proof.
  split; [intros m A; apply eqm_refl|]. split; [intros m A v a _; reflexivity|]. split; [reflexivity|]. intros A. split; [split; [intros i _; unfold lab44; destruct (i =? 3); lia|]|split].
  - intros i j Hi Hj Hz. destruct i as [|[|[|[|i]]]], j as [|[|[|[|j]]]]; try lia; try reflexivity; exfalso; apply Hz; vm_compute; reflexivity.
  - intros i Hi. destruct i as [|[|[|[|i]]]]; try lia; vm_compute; now apply Qc_is_canon.
  - vm_compute. discriminate.
Qed.

(** * C77: the options of compute_transition_matrices *)
Definition C77_statement : Prop := forall n ts lapf E Z P h lamda save rev_time force st s l, laplacians_ok n ts lapf -> StronglySorted Qclt ts -> expm_ok n E ->
  run n ts lapf E Z P (h ++ [CTrans lamda save rev_time force None]) tn0 = Some st -> aget qeqb (t_inter st) lamda = Some (s, l) -> (forall A, In A l -> stochastic n A) ->
  exists v, aget qeqb (t_T st) lamda = Some v /\ product_of n save (in_order rev_time l) v.
Definition hist77 : list call := [CLap None None; CInter (Some 1%num) None None false false; CTrans 1%num false false false None].
Theorem C77_reverse_ignored_refuted : ~ C77_statement.
Proof.
  intros H. set (h := hist77 ++ [CTrans 1%num false true false None]).
  assert (E1 : match run 3 (times (rows net39)) lap39 Estep (zeroed 3) (fun A => A) h tn0 with Some st => match aget qeqb (t_inter st) 1%num, aget qeqb (t_T st) 1%num with
      | Some (_, l), Some (One A) => Some (qeqb (A 0 2) (chain 3 (rev l) 0 2)) | _, _ => None end | None => None end = Some false) by (vm_compute; reflexivity).
  destruct (C39_end_to_end 3 (times (rows net39)) lap39 Estep (zeroed 3) (fun A => A) 1%num None None None None false false false false false (proj1 lap39_ok) (proj2 lap39_ok) (Estep_ok 3) ltac:(discriminate)) as (st & ka & kb & Ls & l & v & HR & _ & HI & HT & _ & Hst & _).
  assert (HR2 : run 3 (times (rows net39)) lap39 Estep (zeroed 3) (fun A => A) h tn0 = Some st). { unfold h. rewrite run_app. unfold hist77. rewrite HR. cbn [run do_call]. unfold compute_trans. now rewrite HI, HT. }
  destruct (H 3 (times (rows net39)) lap39 Estep (zeroed 3) (fun A => A) hist77 1%num false true false st false l (proj1 lap39_ok) (proj2 lap39_ok) (Estep_ok 3) HR2 HI Hst) as (v' & HT' & HP).
  rewrite HR2, HI, HT' in E1. destruct v' as [out|A]; [discriminate E1|]. injection E1 as E1. destruct HP as [_ HP]. specialize (HP 0 2 ltac:(lia) ltac:(lia)). cbn [in_order] in HP. rewrite HP in E1. clear -E1. revert E1. generalize (chain 3 (rev l) 0 2). intros X E1. destruct (qeqb_spec X X) as [_|Hn]; [discriminate E1|now apply Hn].
Qed.
(** What holds: the values are those asked for by the first call for that lamda. *)
Theorem C77_first_call_partial : forall n ts lapf E Z P h st lamda v, without_tol h ->
  run n ts lapf E Z P h tn0 = Some st -> aget qeqb (t_T st) lamda = Some v ->
  exists h1 save rev_time force h2 st1 s l, h = h1 ++ CTrans lamda save rev_time force None :: h2 /\ run n ts lapf E Z P h1 tn0 = Some st1 /\
    aget qeqb (t_T st1) lamda = None /\ aget qeqb (t_inter st1) lamda = Some (s, l) /\
    ((forall A, In A l -> stochastic n A) -> product_of n save (in_order rev_time l) v).
Proof.
  intros n ts lapf E Z P h st y v Hw HR HT. destruct (T_origin n ts lapf E Z P h st y v HR HT) as (h1 & sv & rv & fc & tol & h2 & st1 & s & l & A & r & Eh & H1 & H2 & H3 & H4 & H5).
  assert (Htol : tol = None) by (apply (Hw y sv rv fc tol); rewrite Eh; apply in_or_app; right; now left). subst tol. exists h1, sv, rv, fc, h2, st1, s, l. repeat (split; [assumption|]). intros Hl. unfold in_order. rewrite H4. cbn [clean] in H5. cbn zeta in H5. rewrite H5. apply out_product; [reflexivity|]. intros B HB. apply Hl. rewrite <- H4 in HB. destruct rv; [now apply in_rev|exact HB].
Qed.
Example C77_applies : without_tol hist77 /\ match run 3 (times (rows net39)) lap39 Estep (zeroed 3) (fun A => A) hist77 tn0 with Some st => match aget qeqb (t_T st) 1%num with Some (One _) => True | _ => False end | None => False end.
Proof. split; [|vm_compute; exact I]. intros x s r f t H. cbn in H. destruct H as [H|[H|[H|[]]]]; congruence. Qed.

(** * C78: computing products does not change the factors *)
Definition C78_statement : Prop := forall n lamda save rev_time force tol st st', (0 <= tol)%num -> (tol < 1)%num ->
  compute_trans n (zeroed n) lamda save rev_time force (Some tol) st = Some st' ->
  forall y s l, aget qeqb (t_inter st) y = Some (s, l) -> exists l', aget qeqb (t_inter st') y = Some (s, l') /\ Forall2 (eqm n) l l'.
Theorem C78_tolerance_refuted : ~ C78_statement.
Proof.
  intros H. assert (E1 : match compute_trans 2 (zeroed 2) 1%num true false false (Some (qf 1 100)) st42 with Some st' => match aget qeqb (t_inter st') 1%num with Some (_, l) => Some (qeqb (nth 0 l ident 0 1) 0%num) | None => None end | None => None end = Some true) by (vm_compute; reflexivity).
  destruct (compute_trans 2 (zeroed 2) 1%num true false false (Some (qf 1 100)) st42) as [st'|] eqn:ES; [|discriminate E1].
  destruct (H 2 1%num true false false (qf 1 100) st42 st' ltac:(discriminate) ltac:(reflexivity) ES 1%num true [lazy (qf 1 1000)] eq_refl) as (l' & HI & HF). rewrite HI in E1. inversion HF as [|A B l1 l2 HC _]; subst. cbn [nth] in E1. injection E1 as E1. apply (reflect_iff _ _ (qeqb_spec _ _)) in E1. specialize (HC 0 1 ltac:(lia) ltac:(lia)). rewrite E1 in HC. vm_compute in HC. discriminate HC.
Qed.
Theorem C78_without_tolerance_partial : forall n Z lamda save rev_time force st st', compute_trans n Z lamda save rev_time force None st = Some st' ->
  (forall y, aget qeqb (t_inter st') y = aget qeqb (t_inter st) y) /\ t_lap st' = t_lap st /\ (forall y, y <> lamda -> aget qeqb (t_T st') y = aget qeqb (t_T st) y).
Proof.
  intros n Z x sv rv fc st st' H. destruct (compute_trans_spec n Z x sv rv fc None st st' H) as (HL & _ & _ & _ & _ & s & l & HI & [[_ ->]|(_ & HI2 & A & r & _ & HT)]); [auto|]. split; [|split; [exact HL|]].
  - intros y. rewrite HI2, cleaned_none. destruct (qeqb_spec y x) as [->|Hne]; [now rewrite get_same, HI|now rewrite get_other].
  - intros y Hne. cbn zeta in HT. rewrite HT. now rewrite get_other.
Qed.
Example C78_applies : match compute_trans 2 (zeroed 2) 1%num true false false None st42 with Some _ => True | None => False end.
Proof. vm_compute. exact I. Qed.

(** * C79: with a tolerance below 1/n the products are still stochastic *)
Theorem C79_tolerance : forall n Z lamda save rev_time force tol st st' s l v, zeroing n Z -> (0 <= tol)%num -> (tol * qn n < 1)%num ->
  aget qeqb (t_inter st) lamda = Some (s, l) -> (forall A, In A l -> stochastic n A) -> aget qeqb (t_T st) lamda = None ->
  compute_trans n Z lamda save rev_time force (Some tol) st = Some st' -> aget qeqb (t_T st') lamda = Some v ->
  (forall A, held v A -> stochastic n A) /\
  exists l', aget qeqb (t_inter st') lamda = Some (s, l') /\ length l' = length l /\ (forall A, In A l' -> stochastic n A).
Proof.
  intros n Z x sv rv fc tol st st' s l v HZ H0 H1 HI Hl HT HC Hv. destruct (compute_trans_spec n Z x sv rv fc (Some tol) st st' HC) as (_ & _ & _ & _ & _ & s' & l' & HI' & [[HT' _]|(_ & HI2 & A & r & EL & HT2)]); [contradiction|]. rewrite HI in HI'. injection HI' as <- <-.
  assert (Hl' : forall B, In B (A :: r) -> stochastic n B). { intros B HB. rewrite <- EL in HB. apply Hl. destruct rv; [now apply in_rev|exact HB]. }
  pose proof (clean_stochastic n Z tol A HZ H0 H1 (Hl' A (or_introl eq_refl))) as HA. set (T0 := clean n Z (Some tol) A) in *. cbn zeta in HT2.
  assert (Hout : forall B, In B (T0 :: products n Z (Some tol) T0 r) -> stochastic n B). { intros B [<-|HB]; [exact HA|]. apply (products_stochastic n Z tol T0 r HZ H0 H1 HA); [|exact HB]. intros C HC'. apply Hl'. now right. }
  split.
  - rewrite HT2, get_same in Hv. injection Hv as <-. intros B HB. destruct sv; [now apply Hout|]. assert (EB : B = last (T0 :: products n Z (Some tol) T0 r) ident) by exact HB. rewrite EB, last_nth. apply Hout. apply nth_In. cbn [length]. lia.
  - exists (cleaned n Z (Some tol) rv (fc && s) l). rewrite HI2, get_same. split; [reflexivity|]. assert (HCl : forall B, In B l -> stochastic n (clean n Z (Some tol) B)) by (intros B HB; apply clean_stochastic; auto). unfold cleaned. destruct (fc && s).
    + destruct rv.
      * assert (Hne : l <> []) by (intros ->; discriminate EL). split.
        -- rewrite app_length, map_length. cbn. rewrite (app_removelast_last ident Hne) at 2. rewrite app_length. reflexivity.
        -- intros B HB. apply in_app_or in HB. destruct HB as [HB|[<-|[]]].
           ++ apply in_map_iff in HB. destruct HB as (C & <- & HC'). apply HCl. rewrite (app_removelast_last ident Hne). apply in_or_app. now left.
           ++ apply Hl. rewrite (app_removelast_last ident Hne) at 2. apply in_or_app. right. now left.
      * destruct l as [|C l]; [split; [reflexivity|intros B []]|]. split; [cbn; now rewrite map_length|]. intros B [<-|HB]; [apply Hl; now left|]. apply in_map_iff in HB. destruct HB as (D & <- & HD). apply HCl. now right.
    + split; [apply map_length|]. intros B HB. apply in_map_iff in HB. destruct HB as (D & <- & HD). now apply HCl.
Qed.
(** what is assumed of [set_to_zeroes] holds of its model *)
Theorem C79_set_to_zeroes : forall n, zeroing n (zeroed n).
Proof. exact zeroed_zeroing. Qed.
Example C79_applies : zeroing 2 (zeroed 2) /\ (qf 1 100 * qn 2 < 1)%num /\ stochastic 2 (lazy (qf 1 1000)) /\
  match compute_trans 2 (zeroed 2) 1%num true false false (Some (qf 1 100)) st42 with Some st' => match aget qeqb (t_T st') 1%num with Some (Many _) => True | _ => False end | None => False end.
Proof. split; [apply zeroed_zeroing|]. split; [reflexivity|]. split; [apply lazy_stochastic; discriminate|vm_compute; exact I]. Qed.

(** * Linear approximation over a window *)
Definition lin_step (ts : list num) (P : mat -> mat) (fixt : bool) (lamda t_s : num) (ka : nat) (Ls : list mat) (k : nat) : mat :=
  let T := mminus ident (nth k Ls ident) in
  match lin_approx T (step_length ts fixt ka k * lamda)%num (P T) t_s with Some A => A | None => ident end.
Lemma lin_steps n ts P fixt lamda t_s ka kb Ls l : kb < length ts -> length Ls = kb - ka -> StronglySorted Qclt ts -> (0 <= lamda)%num ->
  per_step ts fixt (ka, kb, Ls) (fun tk L k => match nth_error (map (fun L => P (mminus ident L)) Ls) k with Some Pi => lin_approx (mminus ident L) (tk * lamda)%num Pi t_s | None => None end) = Some l ->
  length l = kb - ka /\ one_per_step n ka kb (lin_step ts P fixt lamda t_s ka Ls) (match l with [] => [ident] | _ => l end).
Proof.
  intros Hkb HLs HS Hx H. set (f := fun tk L k => _) in H.
  assert (Hf : forall k, k < kb - ka -> exists A, f (tau fixt (nth (ka + k) ts 0%num) (nth (S (ka + k)) ts 0%num)) (nth k Ls ident) k = Some A /\ lin_step ts P fixt lamda t_s ka Ls k = A).
  { intros k Hk. unfold f, lin_step. rewrite nth_error_map. rewrite (nth_error_nth' Ls ident) by lia. cbn [option_map].
    change (tau fixt (nth (ka + k) ts 0%num) (nth (S (ka + k)) ts 0%num)) with (step_length ts fixt ka k).
    destruct (lin_approx_defined (mminus ident (nth k Ls ident)) (step_length ts fixt ka k * lamda)%num (P (mminus ident (nth k Ls ident))) t_s) as [A HA]; [apply qmult_nonneg; [apply sorted_step; [exact HS|lia]|exact Hx]|].
    exists A. rewrite HA. split; reflexivity. }
  destruct (per_step_spec ts fixt ka kb Ls f Hkb HLs) as (l' & E' & HL & Hk); [intros k Hkk; destruct (Hf k Hkk) as (A & -> & _); discriminate|]. rewrite E' in H. injection H as ->. split; [exact HL|]. split.
  - intros Hle. destruct l; [repeat constructor|cbn in HL; lia].
  - intros Hlt. destruct l as [|A l]; [cbn in HL; lia|]. split; [exact HL|]. intros k Hkk. destruct (Hf k Hkk) as (B & HB & ->). rewrite (Hk k ident Hkk) in HB. assert (EB : nth k (A :: l) ident = B) by congruence. rewrite EB. apply eqm_refl.
Qed.
Lemma lin_step_stochastic n ts P fixt lamda t_s ka Ls k : (forall A, stochastic n A -> stochastic n (P A)) -> walk_like n (nth k Ls ident) -> stochastic n (lin_step ts P fixt lamda t_s ka Ls k).
Proof.
  intros HP HW. unfold lin_step. apply walk_like_stochastic in HW. cbn zeta. destruct (lin_approx _ _ _ _) as [A|] eqn:EA; [|apply stochastic_ident]. eapply lin_approx_stochastic; [exact HW|apply HP, HW|exact EA].
Qed.

(** * C80: stationary matrices of a new window *)
Definition C80_statement : Prop := forall n ts lapf E Z P h st0 lamda a b t_s fixt sparse st, laplacians_ok n ts lapf -> StronglySorted Qclt ts ->
  (forall A, stochastic n A -> stochastic n (P A)) -> (1 < t_s)%num -> (0 <= lamda)%num ->
  run n ts lapf E Z P h tn0 = Some st0 -> aget pair_eqb (t_inter_lin st0) (lamda, t_s) = None ->
  run n ts lapf E Z P (h ++ [CLinInter (Some lamda) a b t_s fixt sparse]) tn0 = Some st ->
  exists wa wb ka kb Ls l, window_of (h ++ [CLinInter (Some lamda) a b t_s fixt sparse]) = Some (wa, wb) /\ lapf wa wb = Some (ka, kb, Ls) /\
    aget pair_eqb (t_inter_lin st) (lamda, t_s) = Some l /\ one_per_step n ka kb (lin_step ts P fixt lamda t_s ka Ls) l.
(** components for the two graphs of the example *)
Definition P80 (A : mat) : mat := value (stationary_transition 3 (fun i => if qeqb (A 0 1) 0%num then (if i =? 0 then 0 else 1) else (if i =? 2 then 1 else 0)) (csr_of_dense 3 A)).
Lemma P80_stochastic A : stochastic 3 A -> stochastic 3 (P80 A).
Proof. intros H. now apply dense_stationary_stochastic. Qed.
Definition hist80 : list call := [CLap (Some (qn 0)) (Some (qn 1)); CLinInter (Some (qn 5)) None None (qn 10) false false; CLap (Some (qn 1)) (Some (qn 3))].
Definition call80 : call := CLinInter (Some (qn 3)) None None (qn 10) false false.
Theorem C80_stationary_cached_refuted : ~ C80_statement.
Proof.
  intros H.
  assert (E0 : match run 3 (times (rows net39)) lap39 Estep (zeroed 3) P80 hist80 tn0 with Some st => match aget pair_eqb (t_inter_lin st) (qn 3, qn 10) with None => true | Some _ => false end | None => false end = true) by (vm_compute; reflexivity).
  assert (E1 : match run 3 (times (rows net39)) lap39 Estep (zeroed 3) P80 (hist80 ++ [call80]) tn0 with Some st => match aget pair_eqb (t_inter_lin st) (qn 3, qn 10) with Some l => Some (length l, qeqb (nth 0 l ident 0 1) 0%num) | None => None end | None => None end = Some (1, false)) by (vm_compute; reflexivity).
  assert (E2 : match lap39 (Some (qn 1)) (Some (qn 3)) with Some (ka, kb, Ls) => Some (ka, kb, qeqb (lin_step (times (rows net39)) P80 false (qn 3) (qn 10) 1 Ls 0 0 1) 0%num) | None => None end = Some (1, 2, true)) by (vm_compute; reflexivity).
  destruct (run 3 (times (rows net39)) lap39 Estep (zeroed 3) P80 hist80 tn0) as [st0|] eqn:ER0; [|discriminate E0].
  destruct (aget pair_eqb (t_inter_lin st0) (qn 3, qn 10)) eqn:EA; [discriminate E0|].
  destruct (run 3 (times (rows net39)) lap39 Estep (zeroed 3) P80 (hist80 ++ [call80]) tn0) as [st|] eqn:ER; [|discriminate E1].
  destruct (H 3 (times (rows net39)) lap39 Estep (zeroed 3) P80 hist80 st0 (qn 3) None None (qn 10) false false st (proj1 lap39_ok) (proj2 lap39_ok) P80_stochastic ltac:(reflexivity) ltac:(discriminate) ER0 EA ER) as (wa & wb & ka & kb & Ls & l & HW & HL & HI & HO).
  injection HW as <- <-. rewrite HL in E2. rewrite HI in E1. injection E1 as E1 E1'. injection E2 as -> -> E2. destruct (proj2 HO ltac:(lia)) as [_ HK]. specialize (HK 0 ltac:(lia) 0 1 ltac:(lia) ltac:(lia)).
  destruct (qeqb_spec (nth 0 l ident 0 1) 0%num) as [_|Hne]; [discriminate|]. apply Hne. rewrite HK. now apply (reflect_iff _ _ (qeqb_spec _ _)) in E2.
Qed.
(** What holds: Laplacians that are not recomputed once a linear approximation was computed. *)
Definition is_lap (c : call) : bool := match c with CLap _ _ => true | _ => false end.
Definition is_lin (c : call) : bool := match c with CLinInter _ _ _ _ _ _ => true | _ => false end.
Lemma no_stat_before n ts lapf E Z P h st st' : forallb (fun c => negb (is_lin c)) h = true -> run n ts lapf E Z P h st = Some st' -> t_stat st' = t_stat st.
Proof.
  revert st. induction h as [|c h IH]; intros st Hh HR; cbn [run] in HR; [injection HR as <-; reflexivity|]. cbn [forallb] in Hh. apply andb_true_iff in Hh. destruct Hh as [Hc Hh]. destruct (do_call n ts lapf E Z P c st) as [st1|] eqn:EC; [|discriminate]. rewrite (IH st1 Hh HR). destruct c; cbn [do_call] in EC.
  - unfold compute_lap in EC. destruct (lapf _ _); [|discriminate]. injection EC as <-. reflexivity.
  - destruct (compute_inter_spec n ts lapf E _ _ _ _ _ _ _ EC) as (? & ? & ? & ? & ? & _). assumption.
  - destruct (compute_trans_spec n Z _ _ _ _ _ _ _ EC) as (? & ? & ? & _). assumption.
  - discriminate.
  - destruct (compute_lin_trans_spec n Z _ _ _ _ _ _ EC) as (? & ? & ? & _). assumption.
Qed.
Lemma stat_current n ts lapf E Z P h st st' : forallb (fun c => negb (is_lap c)) h = true -> run n ts lapf E Z P h st = Some st' ->
  (t_stat st = None \/ exists ka kb Ls, t_lap st = Some (ka, kb, Ls) /\ t_stat st = Some (map (fun L => P (mminus ident L)) Ls)) ->
  (t_stat st' = None \/ exists ka kb Ls, t_lap st' = Some (ka, kb, Ls) /\ t_stat st' = Some (map (fun L => P (mminus ident L)) Ls)).
Proof.
  revert st. induction h as [|c h IH]; intros st Hh HR H0; cbn [run] in HR; [injection HR as <-; exact H0|]. cbn [forallb] in Hh. apply andb_true_iff in Hh. destruct Hh as [Hc Hh]. destruct (do_call n ts lapf E Z P c st) as [st1|] eqn:EC; [|discriminate]. apply (IH st1 Hh HR). clear IH HR. destruct c; cbn [do_call] in EC.
  - discriminate.
  - destruct (compute_inter_spec n ts lapf E _ _ _ _ _ _ _ EC) as (y & _ & _ & _ & Hs & _ & _ & Hl & _). rewrite Hs, Hl. destruct H0 as [H0|(ka & kb & Ls & H0 & H1)]; [now left|]. right. exists ka, kb, Ls. now rewrite H0.
  - destruct (compute_trans_spec n Z _ _ _ _ _ _ _ EC) as (Hl & _ & Hs & _). now rewrite Hl, Hs.
  - destruct (compute_lin_inter_spec ts lapf P _ _ _ _ _ _ _ _ EC) as (y & _ & _ & _ & _ & _ & H1 & H2 & _). destruct H0 as [H0|(ka & kb & Ls & H0 & H3)].
    + destruct (H1 H0) as (_ & ka & kb & Ls & Hl & Hs). right. now exists ka, kb, Ls.
    + destruct H2 as [Hl Hs]; [congruence|]. right. exists ka, kb, Ls. now rewrite Hl, Hs.
  - destruct (compute_lin_trans_spec n Z _ _ _ _ _ _ EC) as (Hl & _ & Hs & _). now rewrite Hl, Hs.
Qed.
Theorem C80_same_window_partial : forall n ts lapf E Z P h1 h2 st0 lamda a b t_s fixt sparse st, laplacians_ok n ts lapf -> StronglySorted Qclt ts -> (0 <= lamda)%num ->
  forallb (fun c => negb (is_lin c)) h1 = true -> forallb (fun c => negb (is_lap c)) h2 = true ->
  run n ts lapf E Z P (h1 ++ h2) tn0 = Some st0 -> aget pair_eqb (t_inter_lin st0) (lamda, t_s) = None ->
  run n ts lapf E Z P ((h1 ++ h2) ++ [CLinInter (Some lamda) a b t_s fixt sparse]) tn0 = Some st ->
  exists wa wb ka kb Ls l, window_of ((h1 ++ h2) ++ [CLinInter (Some lamda) a b t_s fixt sparse]) = Some (wa, wb) /\ lapf wa wb = Some (ka, kb, Ls) /\
    aget pair_eqb (t_inter_lin st) (lamda, t_s) = Some l /\ one_per_step n ka kb (lin_step ts P fixt lamda t_s ka Ls) l.
Proof.
  intros n ts lapf E Z P h1 h2 st0 y a b t_s f sp st HL HS Hy Hh1 Hh2 H0 Hn HR. pose proof (lap_window n ts lapf E Z P _ st HR) as (HW & _). rewrite run_app, H0 in HR. cbn [run do_call] in HR. destruct (compute_lin_inter ts lapf P (Some y) a b t_s f sp st0) as [st'|] eqn:EC; [|discriminate]. injection HR as <-.
  assert (Hstat : t_stat st0 = None \/ exists ka kb Ls, t_lap st0 = Some (ka, kb, Ls) /\ t_stat st0 = Some (map (fun L => P (mminus ident L)) Ls)).
  { rewrite run_app in H0. destruct (run n ts lapf E Z P h1 tn0) as [st1|] eqn:E1; [|discriminate]. apply (stat_current n ts lapf E Z P h2 st1 st0 Hh2 H0). left. now rewrite (no_stat_before n ts lapf E Z P h1 tn0 st1 Hh1 E1). }
  destruct (compute_lin_inter_spec ts lapf P _ _ _ _ _ _ _ _ EC) as (y' & Ey & _ & _ & _ & _ & H1 & H2 & [[Hc _]|(_ & [[ka kb] Ls] & Pis & l & Hlap & HPi & HM & _ & HI)]); injection Ey as <-; [contradiction|].
  assert (EP : Pis = map (fun L => P (mminus ident L)) Ls). { destruct Hstat as [Hs|(ka' & kb' & Ls' & Hl & Hs)].
    - destruct (H1 Hs) as (_ & k0 & k1 & Ls0 & Hl & Hs'). rewrite Hlap in Hl. injection Hl as <- <- <-. congruence.
    - destruct H2 as [Hl2 Hs2]; [congruence|]. rewrite Hlap, Hl in Hl2. injection Hl2 as -> -> ->. congruence. }
  subst Pis. destruct (window_of ((h1 ++ h2) ++ [CLinInter (Some y) a b t_s f sp])) as [[wa wb]|]; [|congruence]. exists wa, wb, ka, kb, Ls, (match l with [] => [ident] | _ => l end). split; [reflexivity|]. rewrite Hlap in HW. split; [congruence|]. split; [rewrite HI; apply (aget_aset_same pair_eqb pair_eqb_spec)|].
  destruct (HL wa wb) as (ka' & kb' & Ls' & E' & H3 & H4 & _). rewrite <- HW in E'. injection E' as <- <- <-. now apply (lin_steps n ts P f y t_s ka kb Ls l).
Qed.
Example C80_applies : let h1 := [CLap (Some (qn 0)) None] in let h2 := [CLinInter (Some (qn 5)) None None (qn 10) false false; CInter None None None true true] in
  forallb (fun c => negb (is_lin c)) h1 = true /\ forallb (fun c => negb (is_lap c)) h2 = true /\
  match run 3 (times (rows net39)) lap39 Estep (zeroed 3) P80 ((h1 ++ h2) ++ [call80]) tn0 with Some st => match aget pair_eqb (t_inter_lin st) (qn 3, qn 10) with Some l => length l = 2 | None => False end | None => False end.
Proof. split; [reflexivity|]. split; [reflexivity|]. vm_compute. reflexivity. Qed.

(** * C81, C82: linear transition matrices *)
Definition C81_statement : Prop := forall n ts lapf E Z P lamda a b a' b' t_s fixt sparse, laplacians_ok n ts lapf -> StronglySorted Qclt ts ->
  (forall A, stochastic n A -> stochastic n (P A)) -> (1 < t_s)%num -> (0 <= lamda)%num ->
  exists st, run n ts lapf E Z P [CLap a b; CLinInter (Some lamda) a' b' t_s fixt sparse] tn0 = Some st.
Theorem C81_no_event_refuted : ~ C81_statement.
Proof.
  intros H. destruct (H 3 (times (rows net39)) lap39 Estep (zeroed 3) P80 1%num (Some (qn 0)) (Some (qn 0)) None None (qn 10) false true (proj1 lap39_ok) (proj2 lap39_ok) P80_stochastic ltac:(reflexivity) ltac:(discriminate)) as [st Hst].
  assert (E1 : match run 3 (times (rows net39)) lap39 Estep (zeroed 3) P80 [CLap (Some (qn 0)) (Some (qn 0)); CLinInter (Some 1%num) None None (qn 10) false true] tn0 with Some _ => 1 | None => 0 end = 0) by (vm_compute; reflexivity).
  rewrite Hst in E1. discriminate E1.
Qed.
Theorem C82_linear_end_to_end : forall n ts lapf E Z P lamda a b a' b' t_s fixt sparse save rev_time, laplacians_ok n ts lapf -> StronglySorted Qclt ts ->
  (forall A, stochastic n A -> stochastic n (P A)) -> (0 <= lamda)%num ->
  exists ka kb Ls, lapf a b = Some (ka, kb, Ls) /\
    (sparse = false \/ ka < kb -> exists st l v,
      run n ts lapf E Z P [CLap a b; CLinInter (Some lamda) a' b' t_s fixt sparse; CLinTrans lamda t_s save rev_time] tn0 = Some st /\
      aget pair_eqb (t_inter_lin st) (lamda, t_s) = Some l /\ aget pair_eqb (t_T_lin st) (lamda, t_s) = Some v /\
      one_per_step n ka kb (lin_step ts P fixt lamda t_s ka Ls) l /\ (forall A, In A l -> stochastic n A) /\
      product_of n save (in_order rev_time l) v /\ (forall A, held v A -> stochastic n A)).
Proof.
  intros n ts lapf E Z P x a b a' b' t_s fixt sp sv rv HL HS HP Hx. destruct (HL a b) as (ka & kb & Ls & EL & Hkb & HLs & HW). exists ka, kb, Ls. split; [exact EL|]. intros Hsp.
  set (f := fun tk L k => match nth_error (map (fun L => P (mminus ident L)) Ls) k with Some Pi => lin_approx (mminus ident L) (tk * x)%num Pi t_s | None => None end).
  assert (HD : exists l, per_step ts fixt (ka, kb, Ls) f = Some l).
  { destruct (per_step_spec ts fixt ka kb Ls f Hkb HLs) as (l' & E' & _); [|eauto]. intros k Hk. unfold f. rewrite nth_error_map. rewrite (nth_error_nth' Ls ident) by lia. cbn [option_map].
    change (tau fixt (nth (ka + k) ts 0%num) (nth (S (ka + k)) ts 0%num)) with (step_length ts fixt ka k).
    destruct (lin_approx_defined (mminus ident (nth k Ls ident)) (step_length ts fixt ka k * x)%num (P (mminus ident (nth k Ls ident))) t_s) as [A ->]; [apply qmult_nonneg; [apply sorted_step; [exact HS|lia]|exact Hx]|discriminate]. }
  destruct HD as [l0 E0]. destruct (lin_steps n ts P fixt x t_s ka kb Ls l0 Hkb HLs HS Hx E0) as [HL0 HO]. set (l := match l0 with [] => [ident] | _ => l0 end) in *.
  destruct (per_step_stochastic n ka kb _ l HO) as [Hne Hst]; [intros k Hk; apply lin_step_stochastic; auto|].
  set (st1 := set_inter_lin (set_stat (set_lap tn0 (Some (ka, kb, Ls))) (Some (map (fun L => P (mminus ident L)) Ls))) [((x, t_s), l)]).
  assert (HC : compute_lin_inter ts lapf P (Some x) a' b' t_s fixt sp (set_lap tn0 (Some (ka, kb, Ls))) = Some st1).
  { unfold compute_lin_inter, compute_stat, ensure_lap. cbn [t_stat t_lap set_lap set_stat tn0 the_lamda t_inter_lin aget]. fold f. rewrite E0. unfold st1, l. destruct l0 as [|A l0]; [|reflexivity]. destruct sp; [|reflexivity]. exfalso. destruct Hsp as [|Hlt]; [discriminate|]. cbn in HL0. lia. }
  assert (HI : aget pair_eqb (t_inter_lin st1) (x, t_s) = Some l). { unfold st1. cbn [t_inter_lin set_inter_lin aget]. now destruct (pair_eqb_spec (x, t_s) (x, t_s)). }
  assert (HE : exists A r, in_order rv l = A :: r). { unfold in_order. destruct rv; [|destruct l; [contradiction|eauto]]. destruct (rev l) as [|A r] eqn:ER; [|eauto]. exfalso. apply Hne. apply (f_equal (@rev mat)) in ER. now rewrite rev_involutive in ER. } destruct HE as (A & r & HE).
  assert (Hl' : forall B, In B (A :: r) -> stochastic n B). { intros B HB. apply Hst. rewrite <- HE in HB. unfold in_order in HB. destruct rv; [now apply in_rev|exact HB]. }
  pose proof (out_product n Z sv (A :: r) A r eq_refl Hl') as HPr. set (v := if sv then _ else _) in HPr.
  exists (set_T_lin st1 (aset pair_eqb (t_T_lin st1) (x, t_s) v)), l, v. split.
  - cbn [run do_call]. unfold compute_lap. rewrite EL, HC. unfold compute_lin_trans. rewrite HI. fold (in_order rv l). rewrite HE. reflexivity.
  - split; [exact HI|]. split; [apply (aget_aset_same pair_eqb pair_eqb_spec)|]. split; [exact HO|]. split; [exact Hst|]. rewrite HE. split; [exact HPr|]. now apply (product_stochastic n sv (A :: r)).
Qed.
(** the matrices used by the code are stochastic *)
Theorem C82_stationary_stochastic : forall n (lab : mat -> nat -> nat) A, stochastic n A -> stochastic n (value (stationary_transition n (lab A) (csr_of_dense n A))).
Proof. intros n lab A. apply dense_stationary_stochastic. Qed.
Theorem C81_events_partial : forall n ts lapf E Z P lamda a b a' b' t_s fixt sparse ka kb Ls, laplacians_ok n ts lapf -> StronglySorted Qclt ts ->
  (forall A, stochastic n A -> stochastic n (P A)) -> (0 <= lamda)%num -> lapf a b = Some (ka, kb, Ls) -> sparse = false \/ ka < kb ->
  exists st, run n ts lapf E Z P [CLap a b; CLinInter (Some lamda) a' b' t_s fixt sparse] tn0 = Some st.
Proof.
  intros n ts lapf E Z P x a b a' b' t_s fixt sp ka kb Ls HL HS HP Hx EL Hc. destruct (C82_linear_end_to_end n ts lapf E Z P x a b a' b' t_s fixt sp true false HL HS HP Hx) as (ka' & kb' & Ls' & EL' & H). rewrite EL in EL'. injection EL' as <- <- <-. destruct (H Hc) as (st & l & v & HR & _).
  change [CLap a b; CLinInter (Some x) a' b' t_s fixt sp; CLinTrans x t_s true false] with ([CLap a b; CLinInter (Some x) a' b' t_s fixt sp] ++ [CLinTrans x t_s true false]) in HR. rewrite run_app in HR. destruct (run n ts lapf E Z P [CLap a b; CLinInter (Some x) a' b' t_s fixt sp] tn0) as [st1|]; [eauto|discriminate].
Qed.
Example C82_applies : laplacians_ok 3 (times (rows net39)) lap39 /\ StronglySorted Qclt (times (rows net39)) /\ (forall A, stochastic 3 A -> stochastic 3 (P80 A)) /\
  match lap39 None None with Some (ka, kb, _) => ka < kb | None => False end.
Proof. split; [apply lap39_ok|]. split; [apply lap39_ok|]. split; [apply P80_stochastic|]. vm_compute. lia. Qed.

(** * C83: the default rate *)
Lemma num_insert_perm x l : Permutation (num_insert x l) (x :: l).
Proof. induction l as [|y l IH]; cbn; [reflexivity|]. destruct (qleb x y); [reflexivity|]. rewrite IH. apply perm_swap. Qed.
Lemma num_sort_perm l : Permutation (num_sort l) l.
Proof. induction l as [|x l IH]; cbn; [reflexivity|]. fold (num_sort l). rewrite num_insert_perm. now constructor. Qed.
Lemma num_insert_sorted x l : StronglySorted Qcle l -> StronglySorted Qcle (num_insert x l).
Proof.
  induction 1 as [|y l HS IH HF]; cbn; [repeat constructor|]. destruct (qleb_spec x y) as [H|H].
  - constructor; [now constructor|]. constructor; [exact H|]. apply Forall_forall. intros z Hz. rewrite Forall_forall in HF. apply Qcle_trans with y; auto.
  - constructor; [exact IH|]. apply Forall_forall. intros z Hz. apply (Permutation_in _ (num_insert_perm x l)) in Hz. destruct Hz as [<-|Hz]; [qlra|]. rewrite Forall_forall in HF. auto.
Qed.
Lemma num_sort_sorted l : StronglySorted Qcle (num_sort l).
Proof. induction l as [|x l IH]; cbn; [constructor|]. fold (num_sort l). now apply num_insert_sorted. Qed.
Lemma le_sorted_nth l i j : StronglySorted Qcle l -> i <= j -> j < length l -> (nth i l 0 <= nth j l 0)%num.
Proof.
  intros H. revert i j. induction H as [|x l HS IH HF]; intros i j Hij Hj; [cbn in Hj; lia|]. destruct i, j; cbn [nth]; try lia.
  - apply Qcle_refl.
  - rewrite Forall_forall in HF. apply HF, nth_In. cbn in Hj. lia.
  - apply IH; [lia|]. cbn in Hj. lia.
Qed.
Lemma count_ge {A} (p : A -> bool) l k d : (forall i, i < k -> p (nth i l d) = true) -> k <= length l -> k <= length (filter p l).
Proof.
  revert k. induction l as [|x l IH]; intros k Hp Hk; [cbn in Hk; lia|]. destruct k; [lia|]. cbn. rewrite (Hp 0 ltac:(lia) : p x = true). cbn. apply le_n_S, IH; [|cbn in Hk; lia]. intros i Hi. apply (Hp (S i)). lia.
Qed.
Lemma count_perm {A} (p : A -> bool) l l' : Permutation l l' -> length (filter p l) = length (filter p l').
Proof. induction 1; cbn; [reflexivity| | |congruence]; repeat match goal with |- context [p ?x] => destruct (p x) end; cbn; congruence. Qed.
Lemma median_bounds l : l <> [] -> exists i j, i <= j /\ j < length l /\ length l <= 2 * S i /\ length l <= 2 * (length l - j) /\
  (nth i (num_sort l) 0 <= median l)%num /\ (median l <= nth j (num_sort l) 0)%num.
Proof.
  intros Hne. pose proof (num_sort_sorted l) as HS. pose proof (Permutation_length (num_sort_perm l)) as HLn. assert (HL : 0 < length l) by (destruct l; [contradiction|cbn; lia]). unfold median.
  destruct (Nat.even (length l)) eqn:EV.
  - apply Nat.even_spec in EV. destruct EV as [m Hm]. replace (length l / 2) with m by (rewrite Hm, Nat.mul_comm, Nat.div_mul; lia). exists (m - 1), m. split; [lia|]. split; [lia|]. split; [lia|]. split; [lia|].
    pose proof (le_sorted_nth _ (m - 1) m HS ltac:(lia) ltac:(lia)) as H. set (u := nth (m - 1) (num_sort l) 0%num) in *. set (v := nth m (num_sort l) 0%num) in *. clearbody u v. unfold Qcdiv. assert (Hh : (/ 2 + / 2 = 1)%num) by (now apply Qc_is_canon). assert (H0 : (0 <= / 2)%num) by discriminate. set (h := (/ 2)%num) in *. clearbody h.
    assert (H3 : (0 <= (v - u) * h)%num) by (apply qmult_nonneg; [qlra|exact H0]).
    split; [replace ((u + v) * h)%num with (u * (h + h) + (v - u) * h)%num by ring|replace ((u + v) * h)%num with (v * (h + h) - (v - u) * h)%num by ring]; rewrite Hh; qlra.
  - assert (EO : Nat.odd (length l) = true) by (now rewrite <- Nat.negb_even, EV). apply Nat.odd_spec in EO. destruct EO as [m Hm]. replace (length l / 2) with m by (rewrite Hm; rewrite Nat.mul_comm, Nat.div_add_l by lia; cbn; lia). exists m, m. repeat split; try lia; apply Qcle_refl.
Qed.
Lemma diffs_length l : length (diffs l) = length l - 1.
Proof. induction l as [|a [|b l] IH]; [reflexivity|reflexivity|]. change (diffs (a :: b :: l)) with ((b - a)%num :: diffs (b :: l)). cbn [length]. rewrite IH. cbn. lia. Qed.
Lemma diffs_nth l k : S k < length l -> nth k (diffs l) 0%num = (nth (S k) l 0 - nth k l 0)%num.
Proof. revert k. induction l as [|a [|b l] IH]; intros k Hk; [cbn in Hk; lia|cbn in Hk; lia|]. change (diffs (a :: b :: l)) with ((b - a)%num :: diffs (b :: l)). destruct k; [reflexivity|]. cbn [nth]. apply (IH k). cbn in *. lia. Qed.
(** The default is the inverse of a median of the time steps, and positive: at least half of
    the steps are at most 1/lamda and at least half of them are at least 1/lamda. *)
Theorem C83_default_rate : forall ts, StronglySorted Qclt ts -> 2 <= length ts ->
  exists lamda, the_lamda ts None = Some lamda /\ (0 < lamda)%num /\
    let steps := map (fun k => step_length ts false 0 k) (seq 0 (length ts - 1)) in
    length steps <= 2 * length (filter (fun d => qleb d (1 / lamda)%num) steps) /\
    length steps <= 2 * length (filter (fun d => qleb (1 / lamda)%num d) steps).
Proof.
  intros ts HS HL. cbn [the_lamda]. unfold default_lamda. assert (HD : diffs ts = map (fun k => step_length ts false 0 k) (seq 0 (length ts - 1))).
  { apply (nth_ext _ _ 0%num 0%num); [now rewrite map_length, seq_length, diffs_length|]. intros k Hk. rewrite diffs_length in Hk. rewrite (nth_map_dep _ _ _ 0) by (now rewrite seq_length). rewrite seq_nth by exact Hk. rewrite diffs_nth by lia. reflexivity. }
  rewrite <- HD. assert (Hne : diffs ts <> []) by (intros E; pose proof (diffs_length ts) as H; rewrite E in H; cbn in H; lia).
  exists (1 / median (diffs ts))%num. split; [destruct (diffs ts); [contradiction|reflexivity]|]. cbn zeta.
  assert (Hpos : forall d, In d (num_sort (diffs ts)) -> (0 < d)%num). { intros d Hd. apply (Permutation_in _ (num_sort_perm _)) in Hd. apply (In_nth _ _ 0%num) in Hd. destruct Hd as (k & Hk & <-). rewrite diffs_length in Hk. rewrite diffs_nth by lia. destruct (next_time_nth ts k HS ltac:(lia)) as [H _]. qlra. }
  destruct (median_bounds (diffs ts) Hne) as (i & j & Hij & Hj & H1 & H2 & H3 & H4). pose proof (Permutation_length (num_sort_perm (diffs ts))) as HLn.
  assert (Hm : (0 < median (diffs ts))%num). { apply Qclt_le_trans with (nth i (num_sort (diffs ts)) 0%num); [|exact H3]. apply Hpos, nth_In. lia. }
  set (m := median (diffs ts)) in *. assert (Em : (1 / (1 / m) = m)%num) by (field; split; [intros E0; assert (E1 : m = 0%num) by exact E0; rewrite E1 in Hm; qlra|discriminate]). rewrite Em. split; [unfold Qcdiv; rewrite Qcmult_1_l; now apply qinv_pos|].
  rewrite <- !(count_perm _ _ _ (num_sort_perm (diffs ts))). pose proof (num_sort_sorted (diffs ts)) as HSo. split.
  - pose proof (count_ge (fun d => qleb d m) (num_sort (diffs ts)) (S i) 0%num) as K. rewrite HLn in K. specialize (K ltac:(intros a Ha; destruct (qleb_spec (nth a (num_sort (diffs ts)) 0%num) m) as [|Hx]; [reflexivity|]; exfalso; apply Hx; apply Qcle_trans with (nth i (num_sort (diffs ts)) 0%num); [apply le_sorted_nth; [exact HSo|lia|lia]|exact H3]) ltac:(lia)). lia.
  - assert (K : length (diffs ts) - j <= length (filter (fun d => qleb m d) (num_sort (diffs ts)))).
    { rewrite <- (firstn_skipn j (num_sort (diffs ts))). rewrite filter_app, app_length. apply Nat.le_trans with (length (filter (fun d => qleb m d) (skipn j (num_sort (diffs ts))))); [|lia]. apply (count_ge _ _ _ 0%num); [|rewrite skipn_length; lia].
      intros a Ha. rewrite nth_skipn_add. destruct (qleb_spec m (nth (j + a) (num_sort (diffs ts)) 0%num)) as [|Hx]; [reflexivity|]. exfalso. apply Hx. apply Qcle_trans with (nth j (num_sort (diffs ts)) 0%num); [exact H4|]. apply le_sorted_nth; [exact HSo|lia|lia]. }
    lia.
Qed.
Example C83_applies : StronglySorted Qclt [qn 0; qn 1; qn 3; qn 4] /\ the_lamda [qn 0; qn 1; qn 3; qn 4] None = Some 1%num.
Proof. split; [repeat constructor|]. vm_compute. reflexivity. Qed.

Print Assumptions C39_network_laplacians.
Print Assumptions C39_products.
Print Assumptions C39_end_to_end.
Print Assumptions C40_new_window_refuted.
Print Assumptions C40_first_window_partial.
Print Assumptions C40_new_lamda_partial.
Print Assumptions C41_negative_differences_refuted.
Print Assumptions C41_exact_partial.
Print Assumptions C41_all_partial.
Print Assumptions C41_rounded_sparse_partial.
Print Assumptions C42_saving_rounds_refuted.
Print Assumptions C42_saving_partial.
Print Assumptions C43_linear_approximation.
Print Assumptions C44_stationary.
Print Assumptions C55_components.
Print Assumptions C55_laplacian.
Print Assumptions C77_reverse_ignored_refuted.
Print Assumptions C77_first_call_partial.
Print Assumptions C78_tolerance_refuted.
Print Assumptions C78_without_tolerance_partial.
Print Assumptions C79_tolerance.
Print Assumptions C79_set_to_zeroes.
Print Assumptions C80_stationary_cached_refuted.
Print Assumptions C80_same_window_partial.
Print Assumptions C81_no_event_refuted.
Print Assumptions C81_events_partial.
Print Assumptions C82_linear_end_to_end.
Print Assumptions C82_stationary_stochastic.
Print Assumptions C83_default_rate.
