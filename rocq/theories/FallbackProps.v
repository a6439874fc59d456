(** Sparse clusterings without the compiled kernels: property C201. *)
From Verif Require Import Base PartitionModel PartitionSpec PartitionProofs LouvainModel LouvainSpec LouvainProofs
  SparseModel SparseSpec SparseProofs AutocovModel AutocovSpec SparseLouvainModel SparseLouvainSpec SparseLouvainProofs
  SparseLouvainProps LocalProps FallbackModel.
Local Open Scope bool_scope.

(** Cython is optional (README.md): the clustering found does not depend on it. *)
Definition C201_statement : Prop := forall setord orders n PT p sym A thr nmeta nsub,
  is_iteration_order setord -> shuffles orders -> 0 < n -> usable n PT p sym A ->
  k_find_louvain fallback setord orders A thr nmeta nsub (part_default n) =
  k_find_louvain compiled setord orders A thr nmeta nsub (part_default n).

(** * With the compiled kernels, the loops are those of SparseLouvainModel.v *)
Lemma k_sweeps_compiled fuel : forall setord A orders thr ns p dl dt k,
  k_sweeps compiled fuel setord A orders thr ns p dl dt k = sp_sweeps fuel setord A orders thr ns p dl dt k.
Proof.
  induction fuel as [|fuel IH]; intros; cbn [k_sweeps sp_sweeps]; [reflexivity|].
  change (k_sweep compiled setord A (orders k) p) with (sp_sweep setord A (orders k) p).
  destruct (sp_sweep setord A (orders k) p) as [[p' d]|]; [now rewrite IH|reflexivity].
Qed.
Lemma k_meta_compiled fuel : forall setord orders A0 thr nm ns p mA mp delta k stop,
  k_meta_loop compiled fuel setord orders A0 thr nm ns p mA mp delta k stop =
  sp_meta_loop fuel setord orders A0 thr nm ns p mA mp delta k stop.
Proof.
  induction fuel as [|fuel IH]; intros; cbn [k_meta_loop sp_meta_loop]; [reflexivity|]. cbn zeta.
  unfold k_move_nodes, sp_move_nodes. rewrite k_sweeps_compiled.
  destruct (negb _); [|reflexivity]. destruct (sp_sweeps _ _ _ _ _ _ _ _ _ _); try reflexivity.
  destruct (updated_partition _ _); [|reflexivity]. destruct (_ || _ || _); [apply IH|].
  change (k_sp_aggregate compiled A0 p1) with (sp_aggregate A0 p1). destruct (sp_aggregate A0 p1); [apply IH|reflexivity].
Qed.
Lemma k_find_compiled setord orders A thr nm ns p :
  k_find_louvain compiled setord orders A thr nm ns p = sp_find_louvain setord orders A thr nm ns p.
Proof.
  unfold k_find_louvain, sp_find_louvain. destruct (is_all_zeros A); [reflexivity|].
  destruct (ac_copy A); [apply k_meta_compiled|reflexivity].
Qed.

(** * Densities given as vectors: the first node visited raises an exception *)
Lemma visit_vectors setord A p node p1 p2 : a_p A = PVec p1 p2 -> k_visit fallback setord A p node = None.
Proof.
  intros HP. unfold k_visit. destruct (dget (n2c p) node) as [c|]; [|reflexivity].
  unfold k_sp_moveout. destruct (nth_error (cluster_list p) c) as [ix|]; [|reflexivity].
  destruct (memb node ix); [|reflexivity]. cbn [k_moveout fallback]. now rewrite HP.
Qed.
Lemma fold_none {X Y} (f : option X -> Y -> option X) l : (forall y, f None y = None) -> fold_left f l None = None.
Proof. intros H. induction l as [|y l IH]; [reflexivity|]. cbn [fold_left]. now rewrite H. Qed.
Lemma copied A B : ac_copy A = Some B -> a_p B = a_p A.
Proof.
  unfold ac_copy, ac_init. destruct (a_p A) as [x y|x y]; [intros H; now injection H as <-|].
  destruct (_ && _); [intros H; now injection H as <-|discriminate].
Qed.
Theorem C201_vectors : forall setord orders A thr nmeta nsub p p1 p2,
  a_p A = PVec p1 p2 -> is_all_zeros A = false -> (thr < 1)%num -> 1 < nsub -> 0 < num_nodes p -> shuffles orders ->
  k_find_louvain fallback setord orders A thr nmeta nsub p = LRaised p.
Proof.
  intros setord orders A thr nm ns p p1 p2 HP HZ HT HN Hn HS. unfold k_find_louvain. rewrite HZ.
  destruct (ac_copy A) as [mA|] eqn:EC; [|reflexivity]. cbn [k_meta_loop].
  destruct (qleb_spec 1%num thr) as [H|_]; [now apply Qcle_not_lt in H|]. cbn [orb]. change (nm <? 0) with false. cbn [negb]. cbn zeta.
  unfold k_move_nodes. destruct ns as [|ns]; [lia|]. cbn [k_sweeps].
  destruct (qltb_spec thr 1%num) as [_|H]; [|contradiction]. cbn [andb].
  replace (1 <? S ns) with true by (symmetry; apply Nat.ltb_lt; lia).
  change (num_nodes (part_of_list (num_nodes p) (cluster_list p))) with (num_nodes p).
  unfold k_sweep. destruct (orders 1 1 (num_nodes p)) as [|node rest] eqn:EO.
  - specialize (HS 1 1 (num_nodes p)). rewrite EO in HS. apply Permutation_nil in HS. destruct (num_nodes p); [lia|discriminate].
  - cbn [fold_left]. rewrite (visit_vectors setord mA _ node p1 p2) by (rewrite (copied A mA EC); exact HP).
    rewrite fold_none by reflexivity. reflexivity.
Qed.

(** * One number for the densities: the first node with a neighbour raises an exception *)
Lemma best_move_stays A p node c_i r comms :
  k_best_move fallback A p node c_i r comms = if forallb (Nat.eqb c_i) comms then Some (0%num, c_i) else None.
Proof.
  unfold k_best_move. set (f := fun _ _ => _).
  induction comms as [|c comms IH]; [reflexivity|]. cbn [fold_left forallb]. unfold f at 2.
  rewrite (Nat.eqb_sym c c_i). destruct (c_i =? c); [exact IH|]. cbn [andb].
  unfold k_sp_moveto. destruct (nth_error _ _) as [ix|]; [destruct (memb node ix)|]; apply fold_none; reflexivity.
Qed.
Lemma visit_stays setord A p node : k_visit fallback setord A p node = None \/ k_visit fallback setord A p node = Some (p, 0%num).
Proof.
  unfold k_visit. destruct (dget (n2c p) node) as [c|]; [|now left]. destruct (k_sp_moveout _ _ _ _ _) as [r|]; [|now left].
  destruct (potential_new_clusters _ _ _ _) as [comms|]; [|now left]. rewrite best_move_stays.
  destruct (forallb _ _); [|now left]. rewrite Nat.eqb_refl. now right.
Qed.
Lemma sweep_stays setord A p order : k_sweep fallback setord A order p = None \/
  (k_sweep fallback setord A order p = Some (p, 0%num) /\ forall node, In node order -> k_visit fallback setord A p node = Some (p, 0%num)).
Proof.
  unfold k_sweep. set (f := fun _ _ => _). induction order as [|node l IH].
  - right. split; [reflexivity|]. intros _ [].
  - cbn [fold_left]. unfold f at 2 4. destruct (visit_stays setord A p node) as [E|E]; rewrite E.
    + left. apply fold_none. reflexivity.
    + replace (0 + 0)%num with 0%num by ring. destruct IH as [IH|[IH1 IH2]]; [now left|]. right.
      split; [exact IH1|]. intros x [<-|Hx]; [exact E|now apply IH2].
Qed.
(** nodes of a partition into singletons *)
Lemma default_dget n i : i < n -> dget (n2c (part_default n)) i = Some i.
Proof.
  intros Hi. destruct (valid_node_dget (part_default n) i (default_valid n) Hi) as (c & E). rewrite E. f_equal.
  apply (proj2 (default_valid n)) in E. destruct E as (l & E & Hin). rewrite default_clusters in E.
  rewrite nth_error_map in E. destruct (nth_error (seq 0 n) c) eqn:E2; [|discriminate].
  cbn in E. injection E as <-. destruct Hin as [->|[]].
  assert (Hc : c < n). { rewrite <- (seq_length n 0). apply nth_error_Some. congruence. }
  apply (nth_error_nth _ _ 0) in E2. rewrite seq_nth in E2 by exact Hc. exact E2.
Qed.
Lemma stored_neighbour A i j : value (a_PT A) i j <> 0%num -> In j (sp_neighs A i).
Proof.
  intros H. unfold sp_neighs. apply nodup_In, in_or_app. left.
  destruct (in_dec Nat.eq_dec j (map fst (row_entries (a_PT A) i))) as [Hj|Hj]; [exact Hj|].
  exfalso. apply H. rewrite value_scattered. now apply scattered_notin.
Qed.
Theorem C201_raises : forall setord orders n PT p sym A thr nmeta nsub i j,
  is_iteration_order setord -> shuffles orders -> usable n PT p sym A -> is_all_zeros A = false ->
  (thr < 1)%num -> 1 < nsub -> i < n -> j < n -> i <> j -> value (a_PT A) i j <> 0%num ->
  k_find_louvain fallback setord orders A thr nmeta nsub (part_default n) = LRaised (part_default n).
Proof.
  intros setord orders n PT p sym A thr nm ns i j Hso HS HU HZ HT HN Hi Hj Hij Hv. unfold k_find_louvain. rewrite HZ.
  rewrite (ac_copy_id n PT p sym A (proj1 HU)). change (num_nodes (part_default n)) with n. rewrite part_of_list_default.
  cbn [k_meta_loop]. destruct (qleb_spec 1%num thr) as [H|_]; [now apply Qcle_not_lt in H|].
  cbn [orb]. change (nm <? 0) with false. cbn [negb]. cbn zeta.
  unfold k_move_nodes. destruct ns as [|ns]; [lia|]. cbn [k_sweeps].
  destruct (qltb_spec thr 1%num) as [_|H]; [|contradiction]. cbn [andb].
  replace (1 <? S ns) with true by (symmetry; apply Nat.ltb_lt; lia).
  change (num_nodes (part_default n)) with n.
  destruct (sweep_stays setord A (part_default n) (orders 1 1 n)) as [E|[_ E]]; [now rewrite E|].
  exfalso. specialize (E i). assert (Hin : In i (orders 1 1 n)).
  { apply (Permutation_in _ (Permutation_sym (HS 1 1 n))). now apply seq_In_iff. }
  specialize (E Hin). unfold k_visit in E. rewrite default_dget in E by exact Hi.
  destruct (k_sp_moveout _ _ _ _ _) as [r|]; [|discriminate].
  destruct (potential_new_clusters setord (sp_neighs A) (part_default n) i) as [comms|] eqn:EP; [|discriminate].
  rewrite best_move_stays in E. destruct (forallb (Nat.eqb i) comms) eqn:EF; [|discriminate].
  rewrite forallb_forall in EF.
  assert (Hc : In j comms).
  { apply (potential_complete setord (sp_neighs A) (part_default n) i comms j j Hso EP).
    - now apply stored_neighbour.
    - now apply default_dget.
    - rewrite default_dget by exact Hi. congruence. }
  specialize (EF j Hc). apply Nat.eqb_eq in EF. congruence.
Qed.

(** * What the fallback returns is what the compiled kernels return *)
Definition below (K1 K2 : kernels) : Prop :=
  (forall A k idx, k_moveto K1 A k idx = None \/ k_moveto K1 A k idx = k_moveto K2 A k idx) /\
  (forall A k idx, k_moveout K1 A k idx = None \/ k_moveout K1 A k idx = k_moveout K2 A k idx) /\
  (forall A l, k_aggregate K1 A l = None \/ k_aggregate K1 A l = k_aggregate K2 A l).
Lemma fallback_below : below fallback compiled.
Proof.
  split; [now left|]. split; [|now left]. intros A k idx. cbn. destruct (a_p A); [now right|now left].
Qed.
Section Below.
  Context (K1 K2 : kernels) (HK : below K1 K2).
  Lemma below_best A p node c r comms : k_best_move K1 A p node c r comms = None \/
    k_best_move K1 A p node c r comms = k_best_move K2 A p node c r comms.
  Proof.
    unfold k_best_move. set (f1 := fun _ _ => _). set (f2 := fun _ _ => _).
    generalize (Some (0%num, c)). induction comms as [|x l IH]; intros o; [now right|]. cbn [fold_left].
    assert (H : f1 o x = None \/ f1 o x = f2 o x).
    { unfold f1, f2. destruct o as [[db cb]|]; [|now left]. destruct (x =? c); [now right|].
      unfold k_sp_moveto. destruct (nth_error _ _) as [ix|]; [|now left]. destruct (memb node ix); [now left|].
      destruct (proj1 HK A node ix) as [E|E]; rewrite E; [now left|now right]. }
    destruct H as [H|H]; rewrite H; [left; apply fold_none; reflexivity|apply IH].
  Qed.
  Lemma below_visit setord A p node : k_visit K1 setord A p node = None \/ k_visit K1 setord A p node = k_visit K2 setord A p node.
  Proof.
    unfold k_visit. destruct (dget _ _) as [c|]; [|now left].
    assert (H : k_sp_moveout K1 A p node c = None \/ k_sp_moveout K1 A p node c = k_sp_moveout K2 A p node c).
    { unfold k_sp_moveout. destruct (nth_error _ _) as [ix|]; [|now left]. destruct (memb node ix); [|now left]. apply (proj1 (proj2 HK)). }
    destruct H as [H|H]; rewrite H; [now left|]. destruct (k_sp_moveout K2 A p node c) as [r|]; [|now left].
    destruct (potential_new_clusters _ _ _ _) as [comms|]; [|now left].
    destruct (below_best A p node c r comms) as [E|E]; rewrite E; [now left|now right].
  Qed.
  Lemma below_sweep setord A order p : k_sweep K1 setord A order p = None \/ k_sweep K1 setord A order p = k_sweep K2 setord A order p.
  Proof.
    unfold k_sweep. set (f1 := fun _ _ => _). set (f2 := fun _ _ => _).
    generalize (Some (p, 0%num)). induction order as [|x l IH]; intros o; [now right|]. cbn [fold_left].
    assert (H : f1 o x = None \/ f1 o x = f2 o x).
    { unfold f1, f2. destruct o as [[q d]|]; [|now left]. destruct (below_visit setord A q x) as [E|E]; rewrite E; [now left|now right]. }
    destruct H as [H|H]; rewrite H; [left; apply fold_none; reflexivity|apply IH].
  Qed.
  Lemma below_sweeps fuel : forall setord A orders thr ns p dl dt k,
    k_sweeps K1 fuel setord A orders thr ns p dl dt k = MRaised \/
    k_sweeps K1 fuel setord A orders thr ns p dl dt k = k_sweeps K2 fuel setord A orders thr ns p dl dt k.
  Proof.
    induction fuel as [|fuel IH]; intros; cbn [k_sweeps]; [now right|]. destruct (_ && _); [|now right].
    destruct (below_sweep setord A (orders k) p) as [E|E]; rewrite E; [now left|].
    destruct (k_sweep K2 setord A (orders k) p) as [[p' d]|]; [apply IH|now left].
  Qed.
  Lemma below_meta fuel : forall setord orders A0 thr nm ns p mA mp delta k stop,
    (exists q, k_meta_loop K1 fuel setord orders A0 thr nm ns p mA mp delta k stop = LRaised q) \/
    k_meta_loop K1 fuel setord orders A0 thr nm ns p mA mp delta k stop =
    k_meta_loop K2 fuel setord orders A0 thr nm ns p mA mp delta k stop.
  Proof.
    induction fuel as [|fuel IH]; intros; cbn [k_meta_loop]; [now right|]. destruct (negb _); [|now right]. cbn zeta.
    unfold k_move_nodes.
    destruct (below_sweeps ns setord mA (fun k0 => orders (S k) k0 (num_nodes mp)) thr ns mp 1%num 0%num 1) as [E|E]; rewrite E; [left; eauto|].
    destruct (k_sweeps K2 _ _ _ _ _ _ _ _ _ _) as [mp' d' n'| |]; [|left; eauto|now right].
    destruct (updated_partition p mp') as [p'|]; [|left; eauto]. destruct (_ || _ || _); [apply IH|].
    assert (H : k_sp_aggregate K1 A0 p' = None \/ k_sp_aggregate K1 A0 p' = k_sp_aggregate K2 A0 p').
    { unfold k_sp_aggregate. destruct (_ =? _); [now right|]. destruct (proj2 (proj2 HK) A0 (cluster_list p')) as [F|F]; rewrite F; [now left|now right]. }
    destruct H as [H|H]; rewrite H; [left; eauto|]. destruct (k_sp_aggregate K2 A0 p'); [apply IH|left; eauto].
  Qed.
End Below.
(** The fallback raises an exception or finds the clustering that the compiled kernels find. *)
Theorem C201_never_wrong_partial : forall setord orders A thr nmeta nsub p q k,
  k_find_louvain fallback setord orders A thr nmeta nsub p = LDone q k ->
  k_find_louvain compiled setord orders A thr nmeta nsub p = LDone q k.
Proof.
  intros setord orders A thr nm ns p q k. unfold k_find_louvain. destruct (is_all_zeros A); [easy|].
  destruct (ac_copy A) as [mA|]; [|easy].
  match goal with |- k_meta_loop _ ?f ?so ?o ?a ?t ?x ?y ?p ?ma ?mp ?d ?m ?s = _ -> _ =>
    destruct (below_meta fallback compiled fallback_below f so o a t x y p ma mp d m s) as [(r & E)|E] end; rewrite E; [discriminate|easy].
Qed.

(** * The example of C65: four nodes in two pairs *)
Theorem C201_fallback_refuted : ~ C201_statement.
Proof.
  intros H. destruct C65_applies as ((PT & p & HU) & HZ & HF).
  specialize (H keep_order in_order 4 PT p false fourA 0%num 10 10 (fun l => Permutation_refl l)
    (fun level k n => Permutation_refl (seq 0 n)) ltac:(lia) HU).
  rewrite k_find_compiled, HF in H.
  rewrite (C201_raises keep_order in_order 4 PT p false fourA 0%num 10 10 0 1) in H;
    [discriminate H|exact (fun l => Permutation_refl l)|exact (fun level k n => Permutation_refl (seq 0 n))|exact HU|exact HZ|reflexivity|lia|lia|lia|lia|].
  vm_compute. discriminate.
Qed.
(** a walk that never moves, with one number for the densities, is clustered by both *)
Definition stayA : option autocov := ac_init (mkCsr [qf 1 2; qf 1 2] [0; 1] [0; 1; 2]) (PScal (qf 1 2) (qf 1 2)) true.
Example C201_applies : exists A q k, stayA = Some A /\ is_all_zeros A = false /\ length (cluster_list q) = 2 /\
  k_find_louvain fallback keep_order in_order A 0%num 10 10 (part_default 2) = LDone q k.
Proof. eexists. eexists. eexists. split; [vm_compute; reflexivity|]. split; [vm_compute; reflexivity|]. split; [|vm_compute; reflexivity]. reflexivity. Qed.

Print Assumptions C201_fallback_refuted.
Print Assumptions C201_vectors.
Print Assumptions C201_raises.
Print Assumptions C201_never_wrong_partial.
