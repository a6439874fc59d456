(** Transition matrices: products, histories of calls, interpolation, saving. *)
From Verif Require Import Base LouvainModel SparseModel SparseSpec EventsModel EventsSpec EventsProofs TransModel TransSpec MatProofs.

(** ** Dictionaries *)
Section Dict.
Context {K V : Type} (eqb : K -> K -> bool) (Heq : forall a b, reflect (a = b) (eqb a b)).
Lemma aget_aset_same (d : list (K * V)) k v : aget eqb (aset eqb d k v) k = Some v.
Proof.
  induction d as [|[k' v'] d IH]; cbn.
  - now destruct (Heq k k).
  - destruct (Heq k k') as [->|Hn]; cbn; [now destruct (Heq k' k')|]. destruct (Heq k k'); [contradiction|exact IH].
Qed.
Lemma aget_aset_other (d : list (K * V)) k v k2 : k2 <> k -> aget eqb (aset eqb d k v) k2 = aget eqb d k2.
Proof.
  intros H. induction d as [|[k' v'] d IH]; cbn.
  - now destruct (Heq k2 k).
  - destruct (Heq k k') as [->|Hn]; cbn.
    + destruct (Heq k2 k'); congruence.
    + destruct (Heq k2 k'); [reflexivity|exact IH].
Qed.
Lemma aget_in (d : list (K * V)) k v : aget eqb d k = Some v -> In (k, v) d.
Proof.
  induction d as [|[k' v'] d IH]; cbn; [discriminate|]. destruct (Heq k k') as [->|_]; [intros [= ->]; now left|]. auto.
Qed.
End Dict.
Lemma pair_eqb_spec a b : reflect (a = b) (pair_eqb a b).
Proof.
  destruct a as [a1 a2], b as [b1 b2]. unfold pair_eqb. cbn. destruct (qeqb_spec a1 b1) as [->|H]; cbn.
  - destruct (qeqb_spec a2 b2) as [->|H]; constructor; congruence.
  - constructor. congruence.
Qed.
Definition get_same {V} := @aget_aset_same num V qeqb qeqb_spec.
Definition get_other {V} := @aget_aset_other num V qeqb qeqb_spec.

Section Net.
Context (n : nat).

(** ** Products *)
Lemma products_length Z tol T l : length (products n Z tol T l) = length l.
Proof. revert T. induction l as [|A l IH]; intros T; cbn; [reflexivity|]. now rewrite IH. Qed.
Lemma products_chain Z T pre l : eqm n T (chain n pre) -> (forall A, In A (pre ++ l) -> stochastic n A) ->
  forall k, k < length l -> eqm n (nth k (products n Z None T l) ident) (chain n (pre ++ firstn (S k) l)).
Proof.
  revert T pre. induction l as [|A l IH]; intros T pre HT HS k Hk; [cbn in Hk; lia|].
  assert (HT1 : eqm n (rownorm n (mmul n T A)) (chain n (pre ++ [A]))).
  { eapply eqm_trans; [|apply eqm_sym, chain_snoc].
    assert (H1 : eqm n (mmul n T A) (mmul n (chain n pre) A)) by (apply mmul_ext; [exact HT|apply eqm_refl]).
    eapply eqm_trans; [apply rownorm_ext, H1|]. apply rownorm_stochastic, stochastic_mmul.
    - apply stochastic_chain. intros B HB. apply HS. apply in_or_app. now left.
    - apply HS. apply in_or_app. right. now left. }
  destruct k as [|k]; [exact HT1|]. change (firstn (S (S k)) (A :: l)) with (A :: firstn (S k) l). cbn [products trim clean nth].
  - replace (pre ++ A :: firstn (S k) l) with ((pre ++ [A]) ++ firstn (S k) l) by (now rewrite <- app_assoc).
    apply IH; [exact HT1| |cbn in Hk; lia]. intros B HB. apply HS. rewrite <- app_assoc in HB. exact HB.
Qed.
Lemma out_chain Z A r : (forall B, In B (A :: r) -> stochastic n B) ->
  forall k, k < length (A :: r) -> eqm n (nth k (A :: products n Z None A r) ident) (chain n (firstn (S k) (A :: r))).
Proof.
  intros HS [|k] Hk.
  - cbn [nth firstn chain fold_right]. apply eqm_sym, mmul_ident_r.
  - change (firstn (S (S k)) (A :: r)) with ([A] ++ firstn (S k) r). apply products_chain; [|exact HS|cbn in Hk; lia].
    cbn [chain fold_right]. apply eqm_sym, mmul_ident_r.
Qed.
Lemma last_nth {A} (l : list A) d : last l d = nth (length l - 1) l d.
Proof.
  induction l as [|a [|b l] IH]; [reflexivity|reflexivity|]. change (last (a :: b :: l) d) with (last (b :: l) d). rewrite IH. cbn [length]. rewrite Nat.sub_1_r. cbn [pred]. now replace (S (length l) - 1) with (length l) by lia.
Qed.
Lemma clean_stochastic Z tol A : zeroing n Z -> (0 <= tol)%num -> (tol * qn n < 1)%num -> stochastic n A -> stochastic n (clean n Z (Some tol) A).
Proof. apply zeroing_stochastic. Qed.
Lemma products_stochastic Z tol T l : zeroing n Z -> (0 <= tol)%num -> (tol * qn n < 1)%num -> stochastic n T -> (forall A, In A l -> stochastic n A) ->
  forall B, In B (products n Z (Some tol) T l) -> stochastic n B.
Proof.
  intros HZ H0 H1. revert T. induction l as [|A l IH]; intros T HT Hl B HB; [destruct HB|].
  assert (HT1 : stochastic n (rownorm n (Z tol (mmul n T (clean n Z (Some tol) A))))).
  { apply zeroing_stochastic; auto. apply stochastic_mmul; [exact HT|]. apply clean_stochastic; auto. apply Hl. now left. }
  destruct HB as [<-|HB]; [exact HT1|]. apply (IH _ HT1); [|exact HB]. intros C HC. apply Hl. now right.
Qed.

(** ** Steps *)
Lemma all_some_nth {A} (l : list (option A)) r : all_some l = Some r -> length r = length l /\ forall k d, k < length l -> nth k l None = Some (nth k r d).
Proof.
  revert r. induction l as [|o l IH]; cbn; intros r H.
  - injection H as <-. split; [reflexivity|]. intros k d Hk. lia.
  - destruct o as [a|]; [|discriminate]. destruct (all_some l) as [r0|]; [|discriminate]. injection H as <-. destruct (IH r0 eq_refl) as [HL HN].
    split; [cbn; congruence|]. intros [|k] d Hk; [reflexivity|]. cbn. apply HN. lia.
Qed.
Lemma all_some_defined {A} (l : list (option A)) : (forall x, In x l -> x <> None) -> exists r, all_some l = Some r.
Proof.
  induction l as [|o l IH]; cbn; intros H; [eexists; reflexivity|]. destruct o as [a|]; [|exfalso; apply (H None); [now left|reflexivity]].
  destruct IH as [r ->]; [intros x Hx; apply H; now right|]. eexists. reflexivity.
Qed.
Lemma steps_length (ts : list num) ka kb : kb <= length ts -> steps ts ka kb = seq 0 (kb - ka).
Proof. intros H. unfold steps. rewrite firstn_length, skipn_length. f_equal. lia. Qed.
Lemma per_step_spec (ts : list num) fixt ka kb Ls f : kb < length ts -> length Ls = kb - ka ->
  (forall k, k < kb - ka -> f (tau fixt (nth (ka + k) ts 0%num) (nth (S (ka + k)) ts 0%num)) (nth k Ls ident) k <> None) ->
  exists l, per_step ts fixt (ka, kb, Ls) f = Some l /\ length l = kb - ka /\
    forall k d, k < kb - ka -> f (tau fixt (nth (ka + k) ts 0%num) (nth (S (ka + k)) ts 0%num)) (nth k Ls ident) k = Some (nth k l d).
Proof.
  intros Hk HL Hf. unfold per_step. rewrite steps_length by lia.
  set (g := fun k => match nth_error ts (ka + k) with Some tk => match nth_error ts (ka + k + 1) with Some tk1 => match nth_error Ls k with Some L => f (tau fixt tk tk1) L k | None => None end | None => None end | None => None end).
  assert (HG : forall k, k < kb - ka -> g k = f (tau fixt (nth (ka + k) ts 0%num) (nth (S (ka + k)) ts 0%num)) (nth k Ls ident) k).
  { intros k Hk'. unfold g. rewrite (nth_error_nth' ts 0%num) by lia. rewrite (nth_error_nth' ts 0%num) by lia. rewrite (nth_error_nth' Ls ident) by lia. now replace (ka + k + 1) with (S (ka + k)) by lia. }
  destruct (all_some_defined (map g (seq 0 (kb - ka)))) as [l El].
  { intros x Hx. apply in_map_iff in Hx. destruct Hx as (k & <- & Hin). apply in_seq in Hin. rewrite HG by lia. apply Hf. lia. }
  exists l. split; [exact El|]. destruct (all_some_nth _ _ El) as [HLen HN]. rewrite map_length, seq_length in *. split; [exact HLen|].
  intros k d Hk'. rewrite <- (HN k d Hk'). rewrite <- HG by lia. rewrite (nth_indep _ None (g 0)) by (now rewrite map_length, seq_length). rewrite map_nth, seq_nth by lia. reflexivity.
Qed.
Lemma inter_matrices_spec E (ts : list num) fixt x ka kb Ls : kb < length ts -> length Ls = kb - ka ->
  exists l, inter_matrices n ts E fixt x (ka, kb, Ls) = Some l /\
    (kb - ka = 0 -> l = [ident]) /\
    (0 < kb - ka -> length l = kb - ka /\ forall k, k < kb - ka ->
       nth k l ident = inter_step n E (tau fixt (nth (ka + k) ts 0%num) (nth (S (ka + k)) ts 0%num) * x)%num (nth k Ls ident)).
Proof.
  intros Hk HL. destruct (per_step_spec ts fixt ka kb Ls (fun tk L _ => Some (inter_step n E (tk * x)%num L)) Hk HL) as (l & El & HLen & HN); [discriminate|].
  unfold inter_matrices. rewrite El. destruct l as [|A l].
  - exists [ident]. split; [reflexivity|]. split; [reflexivity|]. cbn in HLen. lia.
  - exists (A :: l). split; [reflexivity|]. cbn in HLen. split; [lia|]. intros _. split; [exact HLen|]. intros k Hk'. specialize (HN k ident Hk'). congruence.
Qed.

(** ** has_entries *)
Lemma has_entries_false A : has_entries n A = false -> eqm n A (fun _ _ => 0%num).
Proof.
  intros H i j Hi Hj. unfold has_entries in H. destruct (qeqb_spec (A i j) 0%num) as [E|Hn]; [exact E|]. exfalso.
  assert (existsb (fun ij => negb (qeqb (A (fst ij) (snd ij)) 0%num)) (pairs_of n) = true); [|congruence].
  apply existsb_exists. exists (i, j). split; [apply in_prod; apply in_seq; lia|]. cbn. now destruct (qeqb_spec (A i j) 0%num).
Qed.
Lemma has_entries_true A : has_entries n A = true -> exists i j, i < n /\ j < n /\ A i j <> 0%num.
Proof.
  intros H. apply existsb_exists in H. destruct H as ((i & j) & Hin & H). apply in_prod_iff in Hin. destruct Hin as [Hi Hj]. apply in_seq in Hi, Hj. exists i, j. cbn in H.
  split; [lia|]. split; [lia|]. now destruct (qeqb_spec (A i j) 0%num).
Qed.
Lemma inter_step_eqm E x L : expm_ok n E -> eqm n (inter_step n E x L) (E x L).
Proof.
  intros [_ H0]. unfold inter_step. destruct (has_entries n L) eqn:EH; [apply eqm_refl|]. apply eqm_sym, H0, has_entries_false, EH.
Qed.
End Net.

(** ** Histories of calls *)
Section Hist.
Context (n : nat) (ts : list num) (lapf : option num -> option num -> option (nat * nat * list mat))
  (E : num -> mat -> mat) (Z : num -> mat -> mat) (P : mat -> mat).
Notation run := (run n ts lapf E Z P).
Notation do_call := (do_call n ts lapf E Z P).

Lemma run_app h1 h2 st : run (h1 ++ h2) st = match run h1 st with Some st' => run h2 st' | None => None end.
Proof. revert st. induction h1 as [|c h1 IH]; intros st; cbn; [reflexivity|]. destruct (do_call c st); [apply IH|reflexivity]. Qed.
Lemma ensure_lap_spec a b st st1 : ensure_lap lapf a b st = Some st1 ->
  t_inter st1 = t_inter st /\ t_T st1 = t_T st /\ t_delta st1 = t_delta st /\ t_stat st1 = t_stat st /\ t_inter_lin st1 = t_inter_lin st /\ t_T_lin st1 = t_T_lin st /\
  t_lap st1 = match t_lap st with Some l => Some l | None => lapf a b end /\ t_lap st1 <> None.
Proof.
  unfold ensure_lap, compute_lap. destruct (t_lap st) as [l|] eqn:EL.
  - intros [= <-]. rewrite EL. repeat (split; [reflexivity|]). discriminate.
  - destruct (lapf a b) as [l|]; [|discriminate]. intros [= <-]. cbn. repeat (split; [reflexivity|]). discriminate.
Qed.
(** what one call does to [inter_T] *)
Lemma compute_inter_spec x a b f s st st' : compute_inter n ts lapf E x a b f s st = Some st' ->
  exists y, the_lamda ts x = Some y /\
    t_T st' = t_T st /\ t_delta st' = t_delta st /\ t_stat st' = t_stat st /\ t_inter_lin st' = t_inter_lin st /\ t_T_lin st' = t_T_lin st /\
    t_lap st' = match t_lap st with Some l => Some l | None => lapf a b end /\ t_lap st' <> None /\
    ((aget qeqb (t_inter st) y <> None /\ t_inter st' = t_inter st) \/
     (aget qeqb (t_inter st) y = None /\ exists lap l, t_lap st' = Some lap /\ inter_matrices n ts E f y lap = Some l /\ t_inter st' = aset qeqb (t_inter st) y (s, l))).
Proof.
  unfold compute_inter. destruct (ensure_lap lapf a b st) as [st1|] eqn:EE; [|discriminate]. destruct (the_lamda ts x) as [y|]; [|discriminate].
  destruct (ensure_lap_spec a b st st1 EE) as (H1 & H2 & H3 & H4 & H5 & H6 & H7 & H8).
  destruct (aget qeqb (t_inter st1) y) as [v|] eqn:EG.
  - intros [= <-]. exists y. repeat (split; [assumption || reflexivity|]). left. rewrite <- H1. split; [congruence|]. reflexivity.
  - destruct (t_lap st1) as [lap|] eqn:EL; [|discriminate]. destruct (inter_matrices n ts E f y lap) as [l|] eqn:EI; [|discriminate].
    intros [= <-]. exists y. cbn. rewrite <- H1. repeat (split; [assumption || reflexivity|]). rewrite EL.
    split; [congruence|]. split; [discriminate|]. right. split; [exact EG|]. exists lap, l. auto.
Qed.
Lemma compute_trans_spec x sv rv fc tol st st' : compute_trans n Z x sv rv fc tol st = Some st' ->
  t_lap st' = t_lap st /\ t_delta st' = t_delta st /\ t_stat st' = t_stat st /\ t_inter_lin st' = t_inter_lin st /\ t_T_lin st' = t_T_lin st /\
  exists s l, aget qeqb (t_inter st) x = Some (s, l) /\
    ((aget qeqb (t_T st) x <> None /\ st' = st) \/
     (aget qeqb (t_T st) x = None /\
      t_inter st' = aset qeqb (t_inter st) x (s, cleaned n Z tol rv (fc && s) l) /\
      exists A r, (if rv then rev l else l) = A :: r /\
        let out := clean n Z tol A :: products n Z tol (clean n Z tol A) r in
        t_T st' = aset qeqb (t_T st) x (if sv then Many out else One (last out ident)))).
Proof.
  unfold compute_trans. destruct (aget qeqb (t_inter st) x) as [[s l]|] eqn:EI; [|discriminate]. destruct (aget qeqb (t_T st) x) as [v|] eqn:ET.
  - intros [= <-]. repeat (split; [reflexivity|]). exists s, l. split; [reflexivity|]. left. split; [congruence|reflexivity].
  - destruct (if rv then rev l else l) as [|A r] eqn:EL; [discriminate|]. intros [= <-]. repeat (split; [reflexivity|]). exists s, l. split; [reflexivity|]. right. split; [reflexivity|]. split; [reflexivity|].
    exists A, r. split; [exact EL|]. reflexivity.
Qed.
Lemma compute_lin_inter_spec x a b t f s st st' : compute_lin_inter ts lapf P x a b t f s st = Some st' ->
  exists y, the_lamda ts x = Some y /\ t_inter st' = t_inter st /\ t_T st' = t_T st /\ t_delta st' = t_delta st /\ t_T_lin st' = t_T_lin st /\
    (t_stat st = None -> t_lap st' = match t_lap st with Some l => Some l | None => lapf a b end /\ exists k0 k1 Ls, t_lap st' = Some (k0, k1, Ls) /\ t_stat st' = Some (map (fun L => P (mminus ident L)) Ls)) /\
    (t_stat st <> None -> t_lap st' = t_lap st /\ t_stat st' = t_stat st) /\
    ((aget pair_eqb (t_inter_lin st) (y, t) <> None /\ t_inter_lin st' = t_inter_lin st) \/
     (aget pair_eqb (t_inter_lin st) (y, t) = None /\ exists lap Pis l, t_lap st' = Some lap /\ t_stat st' = Some Pis /\
        per_step ts f lap (fun tk L k => match nth_error Pis k with Some Pi => lin_approx (mminus ident L) (tk * y)%num Pi t | None => None end) = Some l /\
        (l = [] -> s = false) /\ t_inter_lin st' = aset pair_eqb (t_inter_lin st) (y, t) (match l with [] => [ident] | _ => l end))).
Proof.
  unfold compute_lin_inter.
  assert (HS : forall st1, (match t_stat st with Some _ => Some st | None => compute_stat lapf P a b st end) = Some st1 ->
    t_inter st1 = t_inter st /\ t_T st1 = t_T st /\ t_delta st1 = t_delta st /\ t_inter_lin st1 = t_inter_lin st /\ t_T_lin st1 = t_T_lin st /\
    (t_stat st = None -> t_lap st1 = match t_lap st with Some l => Some l | None => lapf a b end /\ exists k0 k1 Ls, t_lap st1 = Some (k0, k1, Ls) /\ t_stat st1 = Some (map (fun L => P (mminus ident L)) Ls)) /\
    (t_stat st <> None -> t_lap st1 = t_lap st /\ t_stat st1 = t_stat st)).
  { intros st1. destruct (t_stat st) as [S|] eqn:ES.
    - intros [= <-]. repeat (split; [reflexivity|]). split; [discriminate|]. rewrite ES. auto.
    - unfold compute_stat. destruct (ensure_lap lapf a b st) as [st2|] eqn:EE; [|discriminate]. destruct (ensure_lap_spec a b st st2 EE) as (H1 & H2 & H3 & H4 & H5 & H6 & H7 & H8).
      destruct (t_lap st2) as [[[k0 k1] Ls]|] eqn:EL; [|discriminate]. intros [= <-]. cbn. repeat (split; [assumption|]). split; [|congruence]. intros _. rewrite EL. split; [exact H7|]. exists k0, k1, Ls. auto. }
  destruct (match t_stat st with Some _ => Some st | None => compute_stat lapf P a b st end) as [st1|]; [|discriminate]. destruct (HS st1 eq_refl) as (H1 & H2 & H3 & H4 & H5 & H6 & H7). clear HS.
  destruct (the_lamda ts x) as [y|]; [|discriminate]. destruct (aget pair_eqb (t_inter_lin st1) (y, t)) as [v|] eqn:EG.
  - intros [= <-]. exists y. repeat (split; [assumption || reflexivity|]). left. rewrite <- H4. split; [congruence|reflexivity].
  - destruct (t_lap st1) as [lap|] eqn:EL; [|discriminate]. destruct (t_stat st1) as [Pis|] eqn:ES; [|discriminate].
    destruct (per_step ts f lap _) as [l|] eqn:EP; [|discriminate].
    assert (HX : forall l0, st' = set_inter_lin st1 (aset pair_eqb (t_inter_lin st1) (y, t) l0) -> (l0 = match l with [] => [ident] | _ => l end) -> (l = [] -> s = false) ->
      exists y0, Some y = Some y0 /\ t_inter st' = t_inter st /\ t_T st' = t_T st /\ t_delta st' = t_delta st /\ t_T_lin st' = t_T_lin st /\
    (t_stat st = None -> t_lap st' = match t_lap st with Some l => Some l | None => lapf a b end /\ exists k0 k1 Ls, t_lap st' = Some (k0, k1, Ls) /\ t_stat st' = Some (map (fun L => P (mminus ident L)) Ls)) /\
    (t_stat st <> None -> t_lap st' = t_lap st /\ t_stat st' = t_stat st) /\
    ((aget pair_eqb (t_inter_lin st) (y0, t) <> None /\ t_inter_lin st' = t_inter_lin st) \/
     (aget pair_eqb (t_inter_lin st) (y0, t) = None /\ exists lap Pis l, t_lap st' = Some lap /\ t_stat st' = Some Pis /\
        per_step ts f lap (fun tk L k => match nth_error Pis k with Some Pi => lin_approx (mminus ident L) (tk * y0)%num Pi t | None => None end) = Some l /\
        (l = [] -> s = false) /\ t_inter_lin st' = aset pair_eqb (t_inter_lin st) (y0, t) (match l with [] => [ident] | _ => l end)))).
    { intros l0 -> -> Hs. exists y. cbn. rewrite EL, ES, <- H4. repeat (split; [assumption || reflexivity|]). right. split; [exact EG|]. exists lap, Pis, l. auto. }
    destruct l as [|A l].
    + destruct s; [discriminate|]. intros [= <-]. eapply HX; reflexivity.
    + intros [= <-]. eapply HX; try reflexivity. discriminate.
Qed.
Lemma compute_lin_trans_spec x t sv rv st st' : compute_lin_trans n Z x t sv rv st = Some st' ->
  t_lap st' = t_lap st /\ t_delta st' = t_delta st /\ t_stat st' = t_stat st /\ t_inter_lin st' = t_inter_lin st /\ t_T st' = t_T st /\ t_inter st' = t_inter st /\
  exists l, aget pair_eqb (t_inter_lin st) (x, t) = Some l /\
    ((aget pair_eqb (t_T_lin st) (x, t) <> None /\ st' = st) \/
     (aget pair_eqb (t_T_lin st) (x, t) = None /\ exists A r, (if rv then rev l else l) = A :: r /\
        let out := A :: products n Z None A r in
        t_T_lin st' = aset pair_eqb (t_T_lin st) (x, t) (if sv then Many out else One (last out ident)))).
Proof.
  unfold compute_lin_trans. destruct (aget pair_eqb (t_inter_lin st) (x, t)) as [l|] eqn:EI; [|discriminate]. destruct (aget pair_eqb (t_T_lin st) (x, t)) as [v|] eqn:ET.
  - intros [= <-]. repeat (split; [reflexivity|]). exists l. split; [reflexivity|]. left. split; [congruence|reflexivity].
  - destruct (if rv then rev l else l) as [|A r] eqn:EL; [discriminate|]. intros [= <-]. repeat (split; [reflexivity|]). exists l. split; [reflexivity|]. right. split; [reflexivity|].
    exists A, r. split; [exact EL|]. reflexivity.
Qed.

(** the Laplacians are those of the current window *)
Lemma lap_window h st : run h tn0 = Some st -> t_lap st = match window_of h with Some (a, b) => lapf a b | None => None end /\ (t_stat st <> None -> t_lap st <> None) /\ (window_of h <> None -> t_lap st <> None).
Proof.
  revert st. induction h as [|c h IH] using rev_ind; intros st H.
  - injection H as <-. cbn. repeat split; congruence.
  - rewrite run_app in H. destruct (run h tn0) as [st1|] eqn:ER; [|discriminate]. destruct (IH st1 eq_refl) as (HL & HS & HW). clear IH. cbn in H. destruct (do_call c st1) as [st2|] eqn:EC; [|discriminate]. injection H as <-.
    unfold window_of in *. rewrite fold_left_app. cbn [fold_left]. set (w := fold_left window_after h None) in *. destruct c; cbn in EC.
    + unfold compute_lap in EC. destruct (lapf t_start t_stop) as [l|] eqn:El; [|discriminate]. injection EC as <-. cbn. rewrite El. repeat split; congruence.
    + destruct (compute_inter_spec _ _ _ _ _ _ _ EC) as (y & _ & _ & _ & HSt & _ & _ & HLp & HNe & _). rewrite HSt. cbn. destruct w as [[wa wb]|]; cbn in *.
      * destruct (t_lap st1) as [l|] eqn:EL1; [|exfalso; apply HW; [discriminate|reflexivity]]. rewrite HLp. split; [exact HL|]. split; intros _; discriminate.
      * rewrite HL in HLp. split; [exact HLp|]. split; intros _; exact HNe.
    + destruct (compute_trans_spec _ _ _ _ _ _ _ EC) as (-> & _ & -> & _). cbn. destruct w; auto.
    + destruct (compute_lin_inter_spec _ _ _ _ _ _ _ _ EC) as (y & _ & _ & _ & _ & _ & HN & HNN & _). cbn. destruct (t_stat st1) as [S|] eqn:ES.
      * destruct (HNN ltac:(discriminate)) as [-> ->]. specialize (HS ltac:(discriminate)). destruct w as [[wa wb]|]; [|congruence]. auto.
      * destruct (HN eq_refl) as (HLp & k0 & k1 & Ls & HLs & _). assert (HNe : t_lap st2 <> None) by congruence. destruct w as [[wa wb]|]; cbn in *.
        -- destruct (t_lap st1) as [l|] eqn:EL1; [|exfalso; apply HW; [discriminate|reflexivity]]. rewrite HLp. split; [exact HL|]. split; intros _; discriminate.
        -- rewrite HL in HLp. split; [exact HLp|]. split; intros _; exact HNe.
    + destruct (compute_lin_trans_spec _ _ _ _ _ _ EC) as (-> & _ & -> & _). cbn. destruct w; auto.
Qed.

(** ** Cached entries *)
Lemma cleaned_none rv cp l : cleaned n Z None rv cp l = l.
Proof. reflexivity. Qed.
Lemma call_keeps_inter c st st' y v : do_call c st = Some st' -> (forall x s r f t, c = CTrans x s r f t -> t = None) -> aget qeqb (t_inter st) y = Some v -> aget qeqb (t_inter st') y = Some v.
Proof.
  intros EC Hn HG. destruct c; cbn in EC.
  - unfold compute_lap in EC. destruct (lapf t_start t_stop); [|discriminate]. now injection EC as <-.
  - destruct (compute_inter_spec _ _ _ _ _ _ _ EC) as (z & _ & _ & _ & _ & _ & _ & _ & _ & [[_ ->]|(HN & lap & l & _ & _ & ->)]); [exact HG|]. rewrite get_other; [exact HG|congruence].
  - rewrite (Hn _ _ _ _ _ eq_refl) in EC. destruct (compute_trans_spec _ _ _ _ _ _ _ EC) as (_ & _ & _ & _ & _ & s & l & HI & [[_ ->]|(_ & HT & _)]); [exact HG|]. rewrite HT, cleaned_none.
    destruct (Qc_eq_dec y lamda) as [->|Hy]; [rewrite get_same; congruence|]. now rewrite get_other.
  - destruct (compute_lin_inter_spec _ _ _ _ _ _ _ _ EC) as (z & _ & -> & _). exact HG.
  - destruct (compute_lin_trans_spec _ _ _ _ _ _ EC) as (_ & _ & _ & _ & _ & -> & _). exact HG.
Qed.
Lemma call_new_inter c st st' y v : do_call c st = Some st' -> aget qeqb (t_inter st) y = None -> aget qeqb (t_inter st') y = Some v ->
  exists x a b f s lap l, c = CInter x a b f s /\ the_lamda ts x = Some y /\ t_lap st' = Some lap /\ inter_matrices n ts E f y lap = Some l /\ v = (s, l).
Proof.
  intros EC HN HG. destruct c; cbn in EC.
  - unfold compute_lap in EC. destruct (lapf t_start t_stop); [|discriminate]. injection EC as <-. cbn in HG. congruence.
  - destruct (compute_inter_spec _ _ _ _ _ _ _ EC) as (z & Hz & _ & _ & _ & _ & _ & _ & _ & [[_ HI]|(HN2 & lap & l & HL & HM & HI)]); rewrite HI in HG; [congruence|].
    destruct (Qc_eq_dec y z) as [->|Hy]; [|rewrite get_other in HG; congruence]. rewrite get_same in HG. injection HG as <-. exists lamda, t_start, t_stop, fix_tau_k, use_sparse_stoch, lap, l. auto.
  - destruct (compute_trans_spec _ _ _ _ _ _ _ EC) as (_ & _ & _ & _ & _ & s & l & HI & [[_ ->]|(_ & HT & _)]); [congruence|]. rewrite HT in HG.
    destruct (Qc_eq_dec y lamda) as [->|Hy]; [congruence|]. rewrite get_other in HG; congruence.
  - destruct (compute_lin_inter_spec _ _ _ _ _ _ _ _ EC) as (z & _ & HI & _). congruence.
  - destruct (compute_lin_trans_spec _ _ _ _ _ _ EC) as (_ & _ & _ & _ & _ & HI & _). congruence.
Qed.
Lemma inter_origin h st y s l : without_tol h -> run h tn0 = Some st -> aget qeqb (t_inter st) y = Some (s, l) ->
  exists h1 x a b f h2 st1, h = h1 ++ CInter x a b f s :: h2 /\ the_lamda ts x = Some y /\ run h1 tn0 = Some st1 /\ aget qeqb (t_inter st1) y = None /\
    exists wa wb lap, window_of (h1 ++ [CInter x a b f s]) = Some (wa, wb) /\ lapf wa wb = Some lap /\ inter_matrices n ts E f y lap = Some l.
Proof.
  revert st. induction h as [|c h IH] using rev_ind; intros st Hw H HG.
  - injection H as <-. discriminate HG.
  - rewrite run_app in H. destruct (run h tn0) as [st1|] eqn:ER; [|discriminate]. assert (H0 := H). cbn in H. destruct (do_call c st1) as [st2|] eqn:EC; [|discriminate]. injection H as <-.
    destruct (aget qeqb (t_inter st1) y) as [v|] eqn:EG.
    + assert (HK := call_keeps_inter c st1 st2 y v EC). rewrite HK in HG; [|intros x s0 r f t ->; apply (Hw x s0 r f t), in_or_app; right; now left|exact EG]. injection HG as ->.
      destruct (IH st1 (fun x s0 r f t Hin => Hw x s0 r f t (in_or_app _ _ _ (or_introl Hin))) eq_refl EG) as (h1 & x & a & b & f & h2 & st3 & -> & HR). exists h1, x, a, b, f, (h2 ++ [c]), st3. split; [now rewrite <- app_assoc|exact HR].
    + destruct (call_new_inter c st1 st2 y (s, l) EC EG HG) as (x & a & b & f & s0 & lap & l0 & -> & Hx & HLp & HM & [= <- <-]).
      exists h, x, a, b, f, [], st1. split; [reflexivity|]. split; [exact Hx|]. split; [exact ER|]. split; [exact EG|].
      assert (HR : run (h ++ [CInter x a b f s]) tn0 = Some st2) by (rewrite run_app, ER; exact H0).
      destruct (lap_window _ _ HR) as (HL & _). destruct (window_of (h ++ [CInter x a b f s])) as [[wa wb]|]; [|congruence]. exists wa, wb, lap. split; [reflexivity|]. split; congruence.
Qed.

Lemma call_T c st st' y v : do_call c st = Some st' -> aget qeqb (t_T st') y = Some v ->
  aget qeqb (t_T st) y = Some v \/
  (aget qeqb (t_T st) y = None /\ exists sv rv fc tol s l A r, c = CTrans y sv rv fc tol /\ aget qeqb (t_inter st) y = Some (s, l) /\ (if rv then rev l else l) = A :: r /\
     let out := clean n Z tol A :: products n Z tol (clean n Z tol A) r in v = if sv then Many out else One (last out ident)).
Proof.
  intros EC HG. destruct c; cbn in EC.
  - unfold compute_lap in EC. destruct (lapf t_start t_stop); [|discriminate]. injection EC as <-. now left.
  - destruct (compute_inter_spec _ _ _ _ _ _ _ EC) as (z & _ & HT & _). left. congruence.
  - destruct (compute_trans_spec _ _ _ _ _ _ _ EC) as (_ & _ & _ & _ & _ & s & l & HI & [[_ ->]|(HN & _ & A & r & HA & HT)]); [now left|]. cbn zeta in HT. rewrite HT in HG.
    destruct (Qc_eq_dec y lamda) as [->|Hy]; [|rewrite get_other in HG by assumption; now left]. rewrite get_same in HG. injection HG as <-. right. split; [exact HN|].
    exists save_intermediate, reverse_time, force_csr, tol, s, l, A, r. repeat (split; [assumption || reflexivity|]). reflexivity.
  - destruct (compute_lin_inter_spec _ _ _ _ _ _ _ _ EC) as (z & _ & _ & HT & _). left. congruence.
  - destruct (compute_lin_trans_spec _ _ _ _ _ _ EC) as (_ & _ & _ & _ & HT & _). left. congruence.
Qed.
Lemma call_keeps_T c st st' y v : do_call c st = Some st' -> aget qeqb (t_T st) y = Some v -> aget qeqb (t_T st') y = Some v.
Proof.
  intros EC HG. destruct c; cbn in EC.
  - unfold compute_lap in EC. destruct (lapf t_start t_stop); [|discriminate]. now injection EC as <-.
  - destruct (compute_inter_spec _ _ _ _ _ _ _ EC) as (z & _ & -> & _). exact HG.
  - destruct (compute_trans_spec _ _ _ _ _ _ _ EC) as (_ & _ & _ & _ & _ & s & l & HI & [[_ ->]|(HN & _ & A & r & HA & HT)]); [exact HG|]. cbn zeta in HT. rewrite HT.
    destruct (Qc_eq_dec y lamda) as [->|Hy]; [congruence|]. now rewrite get_other.
  - destruct (compute_lin_inter_spec _ _ _ _ _ _ _ _ EC) as (z & _ & _ & -> & _). exact HG.
  - destruct (compute_lin_trans_spec _ _ _ _ _ _ EC) as (_ & _ & _ & _ & -> & _). exact HG.
Qed.
Lemma T_origin h st y v : run h tn0 = Some st -> aget qeqb (t_T st) y = Some v ->
  exists h1 sv rv fc tol h2 st1 s l A r, h = h1 ++ CTrans y sv rv fc tol :: h2 /\ run h1 tn0 = Some st1 /\ aget qeqb (t_T st1) y = None /\
    aget qeqb (t_inter st1) y = Some (s, l) /\ (if rv then rev l else l) = A :: r /\
    let out := clean n Z tol A :: products n Z tol (clean n Z tol A) r in v = if sv then Many out else One (last out ident).
Proof.
  revert st. induction h as [|c h IH] using rev_ind; intros st H HG.
  - injection H as <-. discriminate HG.
  - rewrite run_app in H. destruct (run h tn0) as [st1|] eqn:ER; [|discriminate]. cbn in H. destruct (do_call c st1) as [st2|] eqn:EC; [|discriminate]. injection H as <-.
    destruct (call_T c st1 st2 y v EC HG) as [HT|(HN & sv & rv & fc & tol & s & l & A & r & -> & HI & HA & Hv)].
    + destruct (IH st1 eq_refl HT) as (h1 & sv & rv & fc & tol & h2 & st3 & s & l & A & r & -> & HR). exists h1, sv, rv, fc, tol, (h2 ++ [c]), st3, s, l, A, r. split; [now rewrite <- app_assoc|exact HR].
    + exists h, sv, rv, fc, tol, [], st1, s, l, A, r. repeat (split; [assumption || reflexivity|]). exact Hv.
Qed.
End Hist.

(** ** Linear interpolation *)
Lemma mix_stochastic n A B a : stochastic n A -> stochastic n B -> (0 <= a)%num -> (a <= 1)%num -> stochastic n (mplus (mscal (1 - a)%num A) (mscal a B)).
Proof.
  intros [An As] [Bn Bs] H0 H1. unfold mplus, mscal. split.
  - intros i j Hi Hj. specialize (An i j Hi Hj). specialize (Bn i j Hi Hj). revert An Bn H0 H1. generalize (A i j) (B i j). qnra.
  - intros i Hi. rewrite sumN_add, !sumN_scal_l, (As i Hi), (Bs i Hi). ring.
Qed.
Lemma lin_approx_cases T t Pi t_s A : lin_approx T t Pi t_s = Some A ->
  (0 <= t)%num /\
  (((t <= 1)%num /\ A = mplus (mscal (1 - t)%num ident) (mscal t T)) \/
   ((1 < t)%num /\ (t < t_s)%num /\ A = mscal (1 / (1 - t_s))%num (mplus (mscal (t - t_s)%num T) (mscal (1 - t)%num Pi))) \/
   ((1 < t)%num /\ (t_s <= t)%num /\ A = Pi)).
Proof.
  unfold lin_approx. destruct (qltb_spec t 0%num) as [H|H]; [discriminate|]. apply Qcnot_lt_le in H. destruct (qleb_spec t 1%num) as [H1|H1]; [intros [= <-]; auto|]. apply Qcnot_le_lt in H1.
  destruct (qltb_spec t t_s) as [H2|H2]; intros [= <-]; [auto 6|]. apply Qcnot_lt_le in H2. auto 6.
Qed.
Lemma lin_approx_defined T t Pi t_s : (0 <= t)%num -> exists A, lin_approx T t Pi t_s = Some A.
Proof.
  intros H. unfold lin_approx. destruct (qltb_spec t 0%num) as [Hx|_]; [exfalso; revert H Hx; qlra|]. destruct (qleb t 1%num); [eauto|]. destruct (qltb t t_s); eauto.
Qed.
(** the middle branch is a mixture with weight (t - 1)/(t_s - 1) *)
Lemma lin_middle T Pi t t_s i j : (1 < t_s)%num ->
  mscal (1 / (1 - t_s))%num (mplus (mscal (t - t_s)%num T) (mscal (1 - t)%num Pi)) i j =
  mplus (mscal (1 - (t - 1) / (t_s - 1))%num T) (mscal ((t - 1) / (t_s - 1))%num Pi) i j.
Proof.
  intros H. unfold mscal, mplus. field. split; intros H0.
  - assert (H1 : (t_s - 1 = 0)%num) by exact H0. apply (Qclt_not_le _ _ H). clear H H0. revert H1. qlra.
  - assert (H1 : (1 - t_s = 0)%num) by exact H0. apply (Qclt_not_le _ _ H). clear H H0. revert H1. qlra.
Qed.
Lemma weight_range t t_s : (1 < t)%num -> (t < t_s)%num -> (0 <= (t - 1) / (t_s - 1))%num /\ ((t - 1) / (t_s - 1) <= 1)%num.
Proof.
  intros H1 H2. assert (Hp : (0 < t_s - 1)%num) by (revert H1 H2; qlra). assert (Hi := qinv_pos _ Hp). unfold Qcdiv. split.
  - apply qmult_nonneg; [revert H1; qlra|]. revert Hi. generalize (/ (t_s - 1))%num. qlra.
  - assert (E : ((t_s - 1) * / (t_s - 1) = 1)%num) by (apply Qcmult_inv_r; intros E; rewrite E in Hp; revert Hp; qlra).
    assert (H3 : (t - 1 <= t_s - 1)%num) by (revert H2; qlra). apply Qcle_trans with ((t_s - 1) * / (t_s - 1))%num; [|rewrite E; apply Qcle_refl]. apply Qcmult_le_compat_r; [exact H3|]. revert Hi. generalize (/ (t_s - 1))%num. qlra.
Qed.
Lemma lin_approx_stochastic n T t Pi t_s A : stochastic n T -> stochastic n Pi -> lin_approx T t Pi t_s = Some A -> stochastic n A.
Proof.
  intros HT HPi HA. destruct (lin_approx_cases _ _ _ _ _ HA) as (H0 & [[H1 ->]|[(H1 & H2 & ->)|(_ & _ & ->)]]); [|..|exact HPi].
  - apply mix_stochastic; [apply stochastic_ident|exact HT|exact H0|exact H1].
  - destruct (weight_range t t_s H1 H2) as [Hw0 Hw1]. apply (stochastic_ext n (mplus (mscal (1 - (t - 1) / (t_s - 1))%num T) (mscal ((t - 1) / (t_s - 1))%num Pi))).
    + intros i j _ _. symmetry. apply lin_middle. revert H1 H2. qlra.
    + now apply mix_stochastic.
Qed.

(** ** Differences *)
Lemma cumulate_mdiffs n A l : Forall2 (eqm n) (cumulate A (mdiffs (A :: l))) (A :: l).
Proof.
  assert (HG : forall l A A', eqm n A A' -> Forall2 (eqm n) (cumulate A (mdiffs (A' :: l))) (A' :: l)).
  { induction l0 as [|B l0 IH]; intros C C' HC.
    - constructor; [exact HC|constructor].
    - change (mdiffs (C' :: B :: l0)) with (mminus B C' :: mdiffs (B :: l0)). cbn [cumulate]. constructor; [exact HC|]. apply IH.
      intros i j Hi Hj. unfold mplus, mminus. rewrite (HC i j Hi Hj). ring. }
  apply HG, eqm_refl.
Qed.
