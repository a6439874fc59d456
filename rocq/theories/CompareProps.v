(** Comparing and sorting clusterings: properties C19, C20, C70. *)
From Verif Require Import PartitionModel PartitionSpec InfoModel InfoSpec CompareModel CompareSpec CompareProofs Base.

(** * C19 *)
(** [s] pairs of nodes are together in both, [d] in exactly one of the clusterings *)
Definition C19_statement : Prop :=
  forall V a1 a2 s d, not_partition a1 -> not_partition a2 -> arg_covers V a1 -> arg_covers V a2 -> 0 < s + d ->
  pair_count (fun x y => arg_joined a1 x y /\ arg_joined a2 x y) s ->
  pair_count (fun x y => (arg_joined a1 x y /\ ~ arg_joined a2 x y) \/ (~ arg_joined a1 x y /\ arg_joined a2 x y)) d ->
  jaccard_distance a1 a2 = Some (Some (qn d / qn (s + d))%num).
Theorem C19_refuted : ~ C19_statement.
Proof.
  intros H. set (a := ADict [(0, 0); (1, 0)]).
  assert (J : forall x y, arg_joined a x y <-> x < 2 /\ y < 2).
  { intros x y. unfold a. cbn. destruct x as [|[|x]], y as [|[|y]]; cbn; split; intros K; try lia; try (now destruct K as (? & [=] & ?)); try (now destruct K as (? & ? & [=])).
    all: exists 0; now split. }
  assert (C : arg_covers [0; 1] a).
  { split; [repeat constructor; cbn; intuition discriminate|]. apply Permutation_refl. }
  specialize (H [0; 1] a a 1 0 I I C C (le_n 1)).
  assert (E : jaccard_distance a a = Some None) by (vm_compute; reflexivity). rewrite E in H.
  assert (K : Some (@None num) = Some (Some (qn 0 / qn (1 + 0))%num)); [|discriminate].
  apply H.
  - exists [(0, 1)]. split; [repeat constructor; intros []|split; [reflexivity|]]. intros x y. rewrite !J. cbn.
    split; [intros [[= <- <-] | []]; lia|]. intros (A & (B & C') & _). left. f_equal; lia.
  - exists []. split; [constructor|split; [reflexivity|]]. intros x y. cbn. tauto.
Qed.
(** Proved part: the loop completes and counts exactly the pairs the distance is made of. *)
Theorem C19_counts_partial : forall V a1 a2, not_partition a1 -> not_partition a2 -> arg_covers V a1 -> arg_covers V a2 ->
  exists d1 d2 s d, to_dict a1 = Some d1 /\ to_dict a2 = Some d2 /\ jaccard_counts d1 d2 = Some (s, d) /\
    pair_count (fun x y => arg_joined a1 x y /\ arg_joined a2 x y) s /\
    pair_count (fun x y => (arg_joined a1 x y /\ ~ arg_joined a2 x y) \/ (~ arg_joined a1 x y /\ arg_joined a2 x y)) d.
Proof. exact jaccard_spec. Qed.
Example C19_applies : jaccard_counts (build_dict [[0; 1; 2]; [3; 4]]) [(4, 1); (3, 1); (2, 1); (1, 0); (0, 0)] = Some (2, 4) /\
  arg_covers [0; 1; 2; 3; 4] (AList [[0; 1; 2]; [3; 4]]) /\ arg_covers [0; 1; 2; 3; 4] (ADict [(4, 1); (3, 1); (2, 1); (1, 0); (0, 0)]).
Proof.
  split; [vm_compute; reflexivity|split].
  - split; [apply (seq_NoDup 5 0)|apply Permutation_refl].
  - split; [apply (seq_NoDup 5 0)|]. apply Permutation_sym, (Permutation_rev [0; 1; 2; 3; 4]).
Qed.

(** * C20 *)
Theorem C20_sorted : forall argsort cls model thr fuel,
  is_argsort argsort -> cls <> [] -> ~ In [] cls -> (thr <= 1)%num -> length cls <= fuel ->
  exists r, sort_clusters fuel argsort cls model thr = Sorted_to r /\ Permutation r cls.
Proof. intros; now apply sort_clusters_perm. Qed.
(** beyond the bound on the threshold the loop does not end *)
Theorem C20_threshold_needed : forall argsort cls model thr fuel,
  is_argsort argsort -> ~ In [] cls -> (1 < thr)%num -> (exists c m, In c cls /\ In m model /\ meets c m) ->
  sort_clusters fuel argsort cls model thr = Sort_running.
Proof. intros; now apply sort_clusters_stuck. Qed.

(** * C70 *)
Theorem C70_restores : forall argsort P Q thr fuel,
  is_argsort argsort -> NoDup (concat P) -> ~ In [] P -> P <> [] -> Permutation Q P -> (0 < thr)%num -> (thr <= 1)%num -> 1 <= fuel ->
  sort_clusters fuel argsort Q P thr = Sorted_to P.
Proof. intros; now apply sort_clusters_restore. Qed.
Theorem C70_first : forall argsort cls m0 model thr fuel r,
  is_argsort argsort -> ~ In [] cls -> (thr <= 1)%num -> (exists c, In c cls /\ meets c m0) ->
  sort_clusters fuel argsort cls (m0 :: model) thr = Sorted_to r ->
  exists c t, r = c :: t /\ forall c', In c' cls -> (similar c' m0 <= similar c m0)%num.
Proof. intros; eapply sort_clusters_first; eassumption. Qed.

(** ** An argsort that meets the contract, and runs *)
Fixpoint ins (l : list num) (i : nat) (acc : list nat) : list nat :=
  match acc with
  | [] => [i]
  | j :: r => if qleb (nth i l 0%num) (nth j l 0%num) then i :: acc else j :: ins l i r
  end.
Definition isort (l : list num) : list nat := fold_right (ins l) [] (seq 0 (length l)).
Lemma isort_ok : is_argsort isort.
Proof.
  intros l. unfold isort. generalize (seq 0 (length l)) as L.
  assert (IP : forall i acc, Permutation (ins l i acc) (i :: acc)).
  { intros i. induction acc as [|j acc IH]; [reflexivity|]. cbn [ins]. destruct (qleb _ _); [reflexivity|]. rewrite IH. apply perm_swap. }
  assert (IS : forall i acc, StronglySorted (fun i j => (nth i l 0 <= nth j l 0)%num) acc -> StronglySorted (fun i j => (nth i l 0 <= nth j l 0)%num) (ins l i acc)).
  { intros i. induction acc as [|j acc IH]; intros H; cbn [ins]; [repeat constructor|]. apply StronglySorted_inv in H as [H1 H2].
    destruct (qleb_spec (nth i l 0%num) (nth j l 0%num)) as [E|E].
    - constructor; [now constructor|]. constructor; [assumption|]. rewrite Forall_forall in *. intros k Hk. specialize (H2 k Hk). cbv beta in *. qlra.
    - constructor; [now apply IH|]. rewrite Forall_forall in *. intros k Hk. apply (Permutation_in _ (IP i acc)) in Hk as [<- | Hk]; [qlra|now apply H2]. }
  induction L as [|i L [IH1 IH2]]; cbn [fold_right]; [split; [reflexivity|constructor]|]. split; [now rewrite IP, IH1|now apply IS].
Qed.
Example C20_applies : sort_clusters 4 isort [[5]; [0; 1]; [2; 3]; [4]] [[2; 3; 4]; [0; 1]] (qf 3 10) = Sorted_to [[2; 3]; [4]; [0; 1]; [5]].
Proof. vm_compute. reflexivity. Qed.
Example C70_applies : sort_clusters 1 isort [[2; 3]; [4]; [0; 1]] [[0; 1]; [2; 3]; [4]] (qf 3 10) = Sorted_to [[0; 1]; [2; 3]; [4]] /\ is_argsort isort.
Proof. split; [vm_compute; reflexivity|exact isort_ok]. Qed.

Print Assumptions C19_refuted.
Print Assumptions C19_counts_partial.
Print Assumptions C20_sorted.
Print Assumptions C20_threshold_needed.
Print Assumptions C70_restores.
Print Assumptions C70_first.
