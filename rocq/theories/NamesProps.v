(** Theorems C165-C168: the files that the three scripts exchange. *)
From Coq Require Import Ascii String.
From Verif Require Import Base LouvainModel SparseModel EventsModel TransModel FileModel FileSpec FileProofs NamesModel NamesSpec NamesProofs NamesParts.
Local Open Scope list_scope.

(** witnesses *)
Definition day : path := str "day_2".
Lemma day_quiet : quiet day.
Proof.
  split; [cbn; intros X; repeat (destruct X as [X|X]; [discriminate|]); destruct X|]. intros s (a & b & E & _).
  assert (H : forall c, In c s -> In c day) by (intros c Hc; rewrite E; apply in_app_iff; right; apply in_app_iff; now left). split.
  - intros (r & ->). specialize (H "w"%char (or_introl eq_refl)). cbn in H. repeat (destruct H as [H|H]; [discriminate|]). destruct H.
  - intros (ds & _ & _ & (x & y & ->)). assert (X : In "i"%char day) by (apply H; rewrite in_app_iff; right; left; reflexivity). cbn in X. repeat (destruct X as [X|X]; [discriminate|]). destruct X.
Qed.
Lemma one_four : four_digits (qn 1). Proof. exists 1, 0, 0. split; [lia|now apply Qc_is_canon]. Qed.
Lemma small_four : four_digits (qf 25 10000). Proof. exists 25, 4, 0. split; [lia|now apply Qc_is_canon]. Qed.

(** ** C165: the matrices that the first step saves are found by the second *)
Definition C165_statement : Prop := forall (A : Type) compress (compute : task -> A) adj net calls, quiet net -> (forall t, In (SaveTask t) calls -> (0 < k_tau t)%num) ->
  let d := run_step1 compress compute adj net calls [] in
  exists ints taus, read_dir (map fst d) = Some (ints, taus) /\
  forall t, In (SaveTask t) calls -> exists tau, In tau taus /\ load_task d net (mkTask tau (k_int t) (k_lin t) (k_kind t)) = Some (compute t).
Theorem C165_five_digits_refuted : ~ C165_statement.
Proof.
  intros H. set (t := mkTask (qf 12345 10000) 0 false Between).
  destruct (H nat (fun _ => false) (fun _ => 7) (fun _ => 0) day [SaveTask t] day_quiet) as (ints & taus & E & Hl).
  - intros x [X|[]]. injection X as <-. reflexivity.
  - assert (X : match read_dir (map fst (run_step1 (fun _ => false) (fun _ => 7) (fun _ => 0) day [SaveTask t] [])) with
                | Some (_, taus) => forallb (fun tau => match load_task (run_step1 (fun _ => false) (fun _ => 7) (fun _ => 0) day [SaveTask t] []) day (mkTask tau 0 false Between) with Some _ => false | None => true end) taus
                | None => false end = true) by (vm_compute; reflexivity).
    rewrite E in X. destruct (Hl t (or_introl eq_refl)) as (tau & Ht & El). rewrite forallb_forall in X. specialize (X tau Ht). change (k_int t) with 0 in El. change (k_lin t) with false in El. change (k_kind t) with Between in El.
    rewrite El in X. discriminate X.
Qed.
Theorem C165_found_partial : forall (A : Type) compress (compute : task -> A) adj net calls, quiet net -> (forall t, In (SaveTask t) calls -> four_digits (k_tau t)) ->
  let d := run_step1 compress compute adj net calls [] in
  exists ints taus, read_dir (map fst d) = Some (ints, taus) /\
  forall t, In (SaveTask t) calls -> In (k_tau t) taus /\ load_task d net t = Some (compute t).
Proof.
  intros A compress compute adj net calls Hq H4 d. assert (Hd := step1_ok compress compute adj net (proj1 Hq) calls H4). fold d in Hd.
  destruct (read_step1 compress compute adj net calls d Hq H4 Hd) as (ints & taus & E & _ & _ & _ & Ht). exists ints, taus. split; [exact E|]. intros t Hin. split; [apply Ht; now exists t|].
  now apply (load_saved compress compute adj net calls).
Qed.
Definition calls3 : list save_call := [SaveAdj 12; SaveTask (mkTask (qn 1) 12 false Between); SaveTask (mkTask (qf 25 10000) 3 true (Over true)); SaveTask (mkTask (qn 1) 12 false Between)].
Lemma calls3_four : forall t, In (SaveTask t) calls3 -> four_digits (k_tau t).
Proof. intros t [X|[X|[X|[X|[]]]]]; try discriminate X; injection X as <-; [apply one_four|apply small_four|apply one_four]. Qed.
Example C165_applies : quiet day /\ (forall t, In (SaveTask t) calls3 -> four_digits (k_tau t)) /\
  map (fun f => string_of_list_ascii (fst f)) (run_step1 (fun _ => true) (fun t => k_int t) (fun k => k) day calls3 [])
  = ["day_2_tau_w2.500e-03_int000003__reversed_lin_trans_mat.pickle.gz"; "day_2_tau_w1.000e+00_int000012__inter_trans_mat.gz"; "day_2_static_adjacency_int000012.pickle"]%string.
Proof. split; [exact day_quiet|]. split; [exact calls3_four|]. vm_compute. reflexivity. Qed.

(** ** C166: the second step finds the intervals and the waiting times of its network *)
Definition C166_statement : Prop := forall (A : Type) compress (compute : task -> A) adj net calls others, quiet net -> (forall t, In (SaveTask t) calls -> four_digits (k_tau t)) ->
  (forall p, In p others -> ~ starts_with net p) ->
  exists ints taus, read_dir (others ++ map fst (run_step1 compress compute adj net calls [])) = Some (ints, taus) /\
  (forall k, In k ints <-> interval_saved calls k) /\ (forall x, In x taus <-> tau_saved calls x).
(** a ValueError because of another file *)
Theorem C166_other_file_refuted : ~ C166_statement.
Proof.
  intros H. destruct (H nat (fun _ => false) (fun _ => 7) (fun _ => 0) day [SaveAdj 0] [str "edge_weights.csv"] day_quiet) as (ints & taus & E & _).
  - intros t [X|[]]. discriminate X.
  - intros p [<-|[]] (r & E). discriminate E.
  - assert (X : read_dir ([str "edge_weights.csv"] ++ map fst (run_step1 (fun _ => false) (fun _ => 7) (fun _ => 0) day [SaveAdj 0] [])) = None) by (vm_compute; reflexivity). congruence.
Qed.
(** the files of another network count as well *)
Theorem C166_other_network_refuted : ~ forall (A : Type) compress (compute : task -> A) adj net calls net' calls', quiet net -> quiet net' -> ~ starts_with net net' ->
  (forall t, In (SaveTask t) calls -> four_digits (k_tau t)) -> (forall t, In (SaveTask t) calls' -> four_digits (k_tau t)) ->
  exists ints taus, read_dir (map fst (run_step1 compress compute adj net calls (run_step1 compress compute adj net' calls' []))) = Some (ints, taus) /\ forall k, In k ints <-> interval_saved calls k.
Proof.
  intros H. assert (Q : quiet (str "net")).
  { split; [cbn; intros X; repeat (destruct X as [X|X]; [discriminate|]); destruct X|]. intros s (a & b & E & _).
    assert (HC : forall c, In c s -> In c (str "net")) by (intros c Hc; rewrite E; apply in_app_iff; right; apply in_app_iff; now left). split.
    - intros (r & ->). specialize (HC "w"%char (or_introl eq_refl)). cbn in HC. repeat (destruct HC as [HC|HC]; [discriminate|]). destruct HC.
    - intros (ds & _ & _ & (x & y & ->)). assert (X : In "i"%char (str "net")) by (apply HC; rewrite in_app_iff; right; left; reflexivity). cbn in X. repeat (destruct X as [X|X]; [discriminate|]). destruct X. }
  destruct (H nat (fun _ => false) (fun _ => 7) (fun _ => 0) day [SaveAdj 0] (str "net") [SaveAdj 1] day_quiet Q) as (ints & taus & E & Hi).
  - intros (r & E). discriminate E.
  - intros t [X|[]]. discriminate X.
  - intros t [X|[]]. discriminate X.
  - assert (X : read_dir (map fst (run_step1 (fun _ => false) (fun _ => 7) (fun _ => 0) day [SaveAdj 0] (run_step1 (fun _ => false) (fun _ => 7) (fun _ => 0) (str "net") [SaveAdj 1] []))) = Some ([0; 1], [])) by (vm_compute; reflexivity).
    rewrite X in E. injection E as <- <-. destruct (proj1 (Hi 1) (or_intror (or_introl eq_refl))) as [(t & [Y|[]] & _)|[Y|[]]]; discriminate Y.
Qed.
(** names of networks that are mistaken for a waiting time or an interval *)
Theorem C166_name_refuted : ~ forall (A : Type) compress (compute : task -> A) adj net calls, ~ In "/"%char net -> (forall t, In (SaveTask t) calls -> four_digits (k_tau t)) ->
  exists ints taus, read_dir (map fst (run_step1 compress compute adj net calls [])) = Some (ints, taus).
Proof.
  intros H. destruct (H nat (fun _ => false) (fun _ => 7) (fun _ => 0) (str "wild_mice") [SaveAdj 0]) as (ints & taus & E).
  - cbn; intros X; repeat (destruct X as [X|X]; [discriminate|]); destruct X.
  - intros t [X|[]]. discriminate X.
  - assert (X : read_dir (map fst (run_step1 (fun _ => false) (fun _ => 7) (fun _ => 0) (str "wild_mice") [SaveAdj 0] [])) = None) by (vm_compute; reflexivity). congruence.
Qed.
Theorem C166_interval_refuted : ~ forall (A : Type) compress (compute : task -> A) adj net calls, ~ In "/"%char net -> (forall t, In (SaveTask t) calls -> four_digits (k_tau t)) ->
  exists ints taus, read_dir (map fst (run_step1 compress compute adj net calls [])) = Some (ints, taus) /\ forall k, In k ints <-> interval_saved calls k.
Proof.
  intros H. destruct (H nat (fun _ => false) (fun _ => 7) (fun _ => 0) (str "int202001") [SaveAdj 0]) as (ints & taus & E & Hi).
  - cbn; intros X; repeat (destruct X as [X|X]; [discriminate|]); destruct X.
  - intros t [X|[]]. discriminate X.
  - assert (X : match read_dir (map fst (run_step1 (fun _ => false) (fun _ => 7) (fun _ => 0) (str "int202001") [SaveAdj 0] [])) with Some (l, _) => length l | None => 0 end = 2) by (vm_compute; reflexivity).
    rewrite E in X. destruct ints as [|a [|b [|]]]; try discriminate X.
    assert (X' : match read_dir (map fst (run_step1 (fun _ => false) (fun _ => 7) (fun _ => 0) (str "int202001") [SaveAdj 0] [])) with Some ([a; b], _) => (a =? b) | _ => true end = false) by (vm_compute; reflexivity).
    rewrite E in X'. apply Nat.eqb_neq in X'. apply X'.
    assert (G : forall k, In k [a; b] -> k = 0) by (intros k Hk; apply Hi in Hk; destruct Hk as [(t & [Y|[]] & _)|[Y|[]]]; [discriminate Y|now injection Y]).
    rewrite (G a (or_introl eq_refl)), (G b (or_intror (or_introl eq_refl))). reflexivity.
Qed.
Theorem C166_found_partial : forall (A : Type) compress (compute : task -> A) adj net calls, quiet net -> (forall t, In (SaveTask t) calls -> four_digits (k_tau t)) ->
  exists ints taus, read_dir (map fst (run_step1 compress compute adj net calls [])) = Some (ints, taus) /\ increasing Nat.lt ints /\ increasing Qclt taus /\
  (forall k, In k ints <-> interval_saved calls k) /\ (forall x, In x taus <-> tau_saved calls x).
Proof.
  intros A compress compute adj net calls Hq H4. apply (read_step1 compress compute adj net calls); [exact Hq|exact H4|]. now apply step1_ok; [apply Hq|].
Qed.
Example C166_applies : quiet day /\ (forall t, In (SaveTask t) calls3 -> four_digits (k_tau t)) /\
  option_map (fun r => (fst r, map (fun x => string_of_list_ascii (fmt_e3 x)) (snd r))) (read_dir (map fst (run_step1 (fun _ => true) (fun t => k_int t) (fun k => k) day calls3 [])))
  = Some ([3; 12], ["2.500e-03"; "1.000e+00"]%string).
Proof. split; [exact day_quiet|]. split; [exact calls3_four|]. vm_compute. reflexivity. Qed.

(** ** C167: the third step clusters the integrals of its network *)
Definition C167_statement : Prop := forall net files, (forall f, In f files -> four_digits (i_tau f)) -> ~ contains (str "temp_integration") net -> ~ contains (str "pTpint") net ->
  forall f, In f files -> In (name_of f) (selected net (map name_of files)) <-> i_net f = net /\ i_temp f = false.
Theorem C167_longer_name_refuted : ~ C167_statement.
Proof.
  intros H. set (f := mkIntegral (str "day_tau_weekly") (qn 1) false 0 1 false).
  assert (X : i_net f = str "day" /\ i_temp f = false).
  { refine (proj1 (H (str "day") [f] _ _ _ f (or_introl eq_refl)) _).
    - intros g [<-|[]]. apply one_four.
    - intros C. apply containsb_spec in C. discriminate C.
    - intros C. apply containsb_spec in C. discriminate C.
    - assert (X : selected (str "day") (map name_of [f]) = [name_of f]) by (vm_compute; reflexivity). rewrite X. now left. }
  destruct X as [X _]. discriminate X.
Qed.
Theorem C167_selected_partial : forall net files, (forall f, In f files -> four_digits (i_tau f)) -> ~ contains (str "temp_integration") net -> ~ contains (str "pTpint") net ->
  (forall f, In f files -> i_net f <> net -> ~ starts_with (net ++ str "_tau_w") (i_net f)) ->
  forall f, In f files -> In (name_of f) (selected net (map name_of files)) <-> i_net f = net /\ i_temp f = false.
Proof.
  intros net files H4 N1 N2 Ho f Hf. assert (Hp := four_digits_pos _ (H4 f Hf)).
  assert (E : name_of f = any_name (i_temp f) (i_net f) (i_tau f) (i_lin f) (i_from f) (i_to f)) by (unfold name_of; destruct (i_temp f); [apply temp_any|apply integral_any]).
  unfold selected. rewrite filter_In, !Bool.andb_true_iff, !Bool.negb_true_iff, prefixb_spec. split.
  - intros [_ [[Hs Ht] _]]. rewrite E in Hs, Ht. apply starts_like in Hs; [|exact Hp].
    destruct (path_eqb_spec (i_net f) net) as [En|En]; [|exfalso; destruct Hs as [Hs|Hs]; [now apply En|now apply (Ho f Hf En)]]. split; [exact En|].
    destruct (i_temp f); [|reflexivity]. assert (X := temp_has (i_net f) (i_tau f) (i_lin f) (i_from f) (i_to f)). apply containsb_spec in X. congruence.
  - intros [En Et]. split; [now apply in_map|]. rewrite E, Et, En. split; [split|].
    + unfold any_name. exists (fmt_e3 (i_tau f) ++ middle false (i_lin f) ++ padded 6 (i_from f) ++ str "_to_" ++ padded 6 (i_to f) ++ str ".pickle"). now rewrite <- app_assoc.
    + destruct (containsb _ _) eqn:X; [|reflexivity]. apply containsb_spec in X. exfalso. revert X. now apply own_no_temp.
    + destruct (containsb _ _) eqn:X; [|reflexivity]. apply containsb_spec in X. exfalso. revert X. now apply own_no_pTpint.
Qed.
(** different integrals of a network have different names *)
Theorem C167_names_differ_partial : forall f g, four_digits (i_tau f) -> four_digits (i_tau g) -> i_net f = i_net g -> name_of f = name_of g -> f = g.
Proof.
  intros [n tau lin a b t] [n' tau' lin' a' b' t'] Hf Hg En E. cbn in Hf, Hg, En. subst n'.
  assert (E' : any_name t n tau lin a b = any_name t' n tau' lin' a' b') by (unfold name_of in E; cbn in E; destruct t, t'; rewrite ?temp_any, ?integral_any in E; exact E).
  apply any_name_inj in E'; [|assumption|assumption]. destruct E' as (-> & -> & -> & -> & ->). reflexivity.
Qed.
(** the waiting times must not have more digits *)
Theorem C167_same_name_refuted : ~ forall f g, (0 < i_tau f)%num -> (0 < i_tau g)%num -> i_net f = i_net g -> name_of f = name_of g -> f = g.
Proof.
  intros H. assert (X : mkIntegral day (qf 12341 10000) false 0 1 false = mkIntegral day (qf 12342 10000) false 0 1 false) by (apply H; [reflexivity|reflexivity|reflexivity|vm_compute; reflexivity]).
  apply (f_equal (fun f => qeqb (i_tau f) (qf 12341 10000))) in X. vm_compute in X. discriminate X.
Qed.
Definition files4 : list integral :=
  [mkIntegral day (qn 1) false 0 5 false; mkIntegral day (qn 1) true 5 0 false; mkIntegral day (qf 25 10000) false 0 3 true; mkIntegral (str "day") (qn 1) false 0 5 false].
Example C167_applies : (forall f, In f files4 -> four_digits (i_tau f)) /\ ~ contains (str "temp_integration") day /\ ~ contains (str "pTpint") day /\
  (forall f, In f files4 -> i_net f <> day -> ~ starts_with (day ++ str "_tau_w") (i_net f)) /\
  map string_of_list_ascii (selected day (map name_of files4)) = ["day_2_tau_w1.000e+00_PT_000000_to_000005.pickle"; "day_2_tau_w1.000e+00_PT_lin_000005_to_000000.pickle"]%string.
Proof.
  split; [intros f [<-|[<-|[<-|[<-|[]]]]]; (apply one_four || apply small_four)|]. split; [intros C; apply containsb_spec in C; discriminate C|]. split; [intros C; apply containsb_spec in C; discriminate C|].
  split; [|vm_compute; reflexivity]. intros f [<-|[<-|[<-|[<-|[]]]]] N; try (now destruct N). intros (r & E). discriminate E.
Qed.

(** ** C168: the static adjacency matrices that the first step saves are found by the third *)
Definition C168_statement : Prop := forall (A : Type) compress (compute : task -> A) adj net calls tau lin a, ~ In "/"%char net -> (forall t, In (SaveTask t) calls -> four_digits (k_tau t)) ->
  four_digits tau -> In (SaveAdj a) calls ->
  find_static (run_step1 compress compute adj net calls []) net (integral_name net tau lin a (a + 1)) = Some (CAdj (adj a)).
(** none is ever found *)
Theorem C168_never_found : forall (A : Type) compress (compute : task -> A) adj net calls tau lin a b, ~ In "/"%char net -> (forall t, In (SaveTask t) calls -> four_digits (k_tau t)) -> four_digits tau ->
  find_static (run_step1 compress compute adj net calls []) net (integral_name net tau lin a b) = None.
Proof.
  intros A compress compute adj net calls tau lin a b Hn H4 Ht. unfold find_static. rewrite start_stop_name by assumption. unfold read.
  rewrite disk_none; [reflexivity|]. intros f Hf E. destruct (step1_ok compress compute adj net Hn calls H4) as (I1 & _ & _).
  destruct (I1 f Hf) as [(t & _ & ->)|(k & _ & ->)]; cbn [entry adj_entry fst] in E; unfold static_name, adj_name in E.
  - rewrite stem_tail, <- !app_assoc in E. apply app_inv_head in E. discriminate E.
  - apply app_inv_head in E. discriminate E.
Qed.
Theorem C168_names_refuted : ~ C168_statement.
Proof.
  intros H. assert (X := H nat (fun _ => false) (fun _ => 7) (fun _ => 0) day [SaveAdj 4] (qn 1) false 4 (proj1 day_quiet)).
  rewrite C168_never_found in X; [|exact (proj1 day_quiet)|intros t [Y|[]]; discriminate Y|exact one_four]. discriminate X.
  - intros t [Y|[]]; discriminate Y.
  - exact one_four.
  - now left.
Qed.
(** a matrix saved under the name that is expected is found for both directions of time *)
Theorem C168_expected_partial : forall (A : Type) (d : dir A) net tau lin a b x, ~ In "/"%char net -> four_digits tau ->
  read (disk_of d) (static_name net (Nat.min a b) (Nat.max a b)) Plain = Some x ->
  find_static d net (integral_name net tau lin a b) = Some x /\ find_static d net (integral_name net tau lin b a) = Some x.
Proof.
  intros A d net tau lin a b x Hn Ht Hx. unfold find_static. rewrite !start_stop_name by assumption. split; [exact Hx|]. now rewrite Nat.min_comm, Nat.max_comm.
Qed.
Example C168_applies : ~ In "/"%char day /\ four_digits (qn 1) /\ read (disk_of [(str "day_2_static_A_000003_to_000012.pickle", (Plain, CAdj 7))]) (static_name day (Nat.min 12 3) (Nat.max 12 3)) Plain = Some (CAdj 7).
Proof. split; [exact (proj1 day_quiet)|]. split; [exact one_four|]. vm_compute. reflexivity. Qed.

Print Assumptions C165_five_digits_refuted.
Print Assumptions C165_found_partial.
Print Assumptions C166_other_file_refuted.
Print Assumptions C166_other_network_refuted.
Print Assumptions C166_name_refuted.
Print Assumptions C166_interval_refuted.
Print Assumptions C166_found_partial.
Print Assumptions C167_longer_name_refuted.
Print Assumptions C167_selected_partial.
Print Assumptions C167_names_differ_partial.
Print Assumptions C167_same_name_refuted.
Print Assumptions C168_never_found.
Print Assumptions C168_names_refuted.
Print Assumptions C168_expected_partial.
