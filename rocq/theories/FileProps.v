(** Saving and loading: C109-C114. *)
From Coq Require Import Ascii String.
From Verif Require Import Base MatProofs LouvainModel SparseModel SparseSpec SparseProofs AutocovProps EventsModel EventsSpec EventsProofs EventsProps
  TransModel TransSpec TransProofs TransProps FileModel FileSpec FileProofs.

(** * C109: a network saved and loaded again *)
Definition C109_statement : Prop := forall (L A : Type) fuel (nm : naming L) reset merge srcs tgts starts ends g (ob ob1 : object L A) p d,
  construct fuel nm reset merge srcs tgts starts ends g = Some ob -> after_setting computed_names ob ob1 ->
  exists o', load false p None None (save ob1 p None None d) = Some o' /\ forall k, o_attrs o' k = o_attrs ob1 k.
Lemma after_nothing {L A} names (o : object L A) : after_setting names o o.
Proof. split; [reflexivity|]. split; [reflexivity|]. auto. Qed.
Theorem C109_labels_refuted : ~ C109_statement.
Proof.
  intros H. destruct (construct (A := nat) 0 (Relabelled [10; 20]) true false [0] [1] [qn 0] [qn 1] []) as [ob|] eqn:E; [|discriminate E].
  destruct (H nat nat _ _ _ _ _ _ _ _ _ ob ob (str "net") (fun _ => None) E (after_nothing _ ob)) as (o' & HL & HK). specialize (HK "label_to_node_dict"%string).
  destruct (restored _ _ _ _ _ _ _ _ _ ob ob (str "net") (fun _ => None) _ E (after_nothing _ ob) eq_refl) as (o1 & HL1 & _). rewrite HL in HL1. injection HL1 as ->.
  unfold load, save in HL. injection E as <-. cbv in HL. injection HL as <-. cbv in HK. discriminate HK.
Qed.
(** instantaneous events *)
Definition C109_inst_statement : Prop := forall (L A : Type) (nm : naming L) reset srcs tgts starts (ob : object L A) p d,
  construct_inst nm reset srcs tgts starts = Some ob -> load true p None None (save ob p None None d) <> None.
Theorem C109_instantaneous_refuted : ~ C109_inst_statement.
Proof.
  intros H. destruct (construct_inst (L := nat) (A := nat) (Given None) true [0] [1] [qn 0]) as [ob|] eqn:E; [|discriminate E].
  apply (H nat nat _ _ _ _ _ ob (str "net") (fun _ => None) E). clear H. unfold load, save. change Plain with (format_of false). rewrite read_written.
  destruct (aget String.eqb _ "events_table"%string) as [[]|]; try reflexivity. destruct (aget String.eqb _ "node_to_label_dict"%string) as [[]|]; reflexivity.
Qed.
(** What holds: every attribute but label_to_node_dict is restored, the durations of merged
    events are computed again, and after merging node_array is that of the remaining events. *)
Theorem C109_restored_partial : forall (L A : Type) fuel (nm : naming L) reset merge srcs tgts starts ends g (ob ob1 : object L A) p d,
  construct fuel nm reset merge srcs tgts starts ends g = Some ob -> after_setting computed_names ob ob1 ->
  exists o', load false p None None (save ob1 p None None d) = Some o' /\ o_inst o' = o_inst ob1 /\
    (forall k, ~ In k ["label_to_node_dict"; "events_table"; "node_array"]%string -> o_attrs o' k = o_attrs ob1 k) /\
    (exists t t', o_attrs ob1 "events_table"%string = Some (VTable t) /\ o_attrs o' "events_table"%string = Some (VTable t') /\ same_events t t' /\ durations_right t') /\
    (merge = false -> forall k, k <> "label_to_node_dict"%string -> o_attrs o' k = o_attrs ob1 k).
Proof.
  intros L A fuel nm reset merge srcs tgts starts ends g ob ob1 p d HC HS. destruct (construct_get _ _ _ _ _ _ _ _ _ _ HC) as (N & HN & Hi & _).
  destruct (restored fuel nm reset merge srcs tgts starts ends g ob ob1 p d N HC HS HN) as (o' & HL & HK & E1 & E2 & E3 & E4). eexists. split; [exact HL|]. cbn [o_inst o_attrs]. split; [rewrite (proj1 HS); now rewrite Hi|]. split; [exact HK|]. split.
  - exists (rows N), (with_durations (rows N)). split; [exact E1|]. split; [exact E2|]. apply with_durations_same.
  - intros -> k Hk. destruct (string_dec k "events_table") as [->|Ht]; [|destruct (string_dec k "node_array") as [->|Ha]].
    + rewrite E1, E2, with_durations_id; [reflexivity|]. intros r Hr. apply (C74_durations_partial _ _ _ _ _ _ _ HN). apply in_map. exact Hr.
    + rewrite E3, E4. unfold make_net in HN. destruct (build_table reset srcs tgts starts ends); [|discriminate]. injection HN as <-. reflexivity.
    + apply HK. cbn. intuition congruence.
Qed.
(** and what the object says about its table is true of it *)
Theorem C109_counts_partial : forall (L A : Type) fuel (nm : naming L) reset srcs tgts starts ends g (ob ob1 o' : object L A) p d,
  construct fuel nm reset false srcs tgts starts ends g = Some ob -> after_setting computed_names ob ob1 -> load false p None None (save ob1 p None None d) = Some o' ->
  exists ns t a b, o_attrs o' "node_array"%string = Some (VNodes ns) /\ o_attrs o' "events_table"%string = Some (VTable t) /\
    o_attrs o' "num_nodes"%string = Some (VCount (length ns)) /\ o_attrs o' "num_events"%string = Some (VCount (length t)) /\
    o_attrs o' "start_time"%string = Some (VTime a) /\ o_attrs o' "end_time"%string = Some (VTime b) /\
    (forall v, In v ns <-> exists e, In e (map snd t) /\ (v = e_src e \/ v = e_tgt e)) /\ NoDup ns /\
    (t <> [] -> (exists e, In e (map snd t) /\ e_start e = a) /\ (exists e, In e (map snd t) /\ e_end e = b) /\
      forall e, In e (map snd t) -> (a <= e_start e)%num /\ (e_end e <= b)%num).
Proof.
  intros L A fuel nm reset srcs tgts starts ends g ob ob1 o' p d HC HS HL.
  destruct (C109_restored_partial L A fuel nm reset false srcs tgts starts ends g ob ob1 p d HC HS) as (o2 & HL2 & _ & _ & _ & HK). rewrite HL in HL2. injection HL2 as <-. specialize (HK eq_refl).
  destruct (construct_get _ _ _ _ _ _ _ _ _ _ HC) as (N & HN & _ & HG). destruct HS as (_ & HS & _).
  assert (EN : nodes N = node_array (rows N)). { unfold make_net in HN. destruct (build_table reset srcs tgts starts ends); [|discriminate]. injection HN as <-. reflexivity. }
  exists (nodes N), (rows N), (num_min (map (fun r => e_start (snd r)) (rows N))), (num_maxl (map (fun r => e_end (snd r)) (rows N))).
  do 6 (split; [rewrite HK by discriminate; rewrite HS by (cbn; intuition discriminate); rewrite HG; destruct nm; reflexivity|]).
  split; [intros v; rewrite EN; apply node_array_in|]. split.
  { rewrite EN. clear. assert (HSo := node_array_sorted (rows N)). induction HSo as [|x l _ IH HF]; constructor; [|exact IH]. intros Hx. rewrite Forall_forall in HF. specialize (HF x Hx). lia. }
  intros Ht. assert (H1 : map (fun r : nat * event => e_start (snd r)) (rows N) <> []) by (destruct (rows N); [congruence|discriminate]).
  assert (H2 : map (fun r : nat * event => e_end (snd r)) (rows N) <> []) by (destruct (rows N); [congruence|discriminate]).
  destruct (num_min_spec _ H1) as [M1 M2], (num_maxl_spec _ H2) as [M3 M4]. apply in_map_iff in M1, M3. destruct M1 as (r1 & E1 & R1), M3 as (r2 & E2 & R2).
  split; [exists (snd r1); split; [now apply in_map|exact E1]|]. split; [exists (snd r2); split; [now apply in_map|exact E2]|].
  intros e He. apply in_map_iff in He. destruct He as (r & <- & Hr). split; [apply M2, in_map_iff; now exists r|apply M4, in_map_iff; now exists r].
Qed.
(** the labels: node [k] of a loaded network has the [k]-th label, and before saving the other
    dictionary gave each label its node *)
Lemma aget_combine_seq {V} (ls : list V) : forall k s, aget Nat.eqb (combine (seq s (length ls)) ls) k = if k <? s then None else nth_error ls (k - s).
Proof.
  induction ls as [|l ls IH]; intros k s; cbn [length seq combine aget].
  - destruct (k <? s); [reflexivity|]. now destruct (k - s).
  - destruct (Nat.eqb_spec k s) as [->|Hne]; [rewrite Nat.ltb_irrefl, Nat.sub_diag; reflexivity|]. rewrite IH. destruct (Nat.ltb_spec k (S s)), (Nat.ltb_spec k s); try lia; try reflexivity. replace (k - s) with (S (k - S s)) by lia. reflexivity.
Qed.
Lemma in_combine_seq {V} (ls : list V) : forall l k s, In (l, k) (combine ls (seq s (length ls))) <-> s <= k /\ nth_error ls (k - s) = Some l.
Proof.
  induction ls as [|x ls IH]; intros l k s; cbn [length seq combine].
  - split; [intros []|]. intros [_ H]. now destruct (k - s).
  - split.
    + intros [E|H]; [injection E as -> ->; now rewrite Nat.sub_diag|]. apply IH in H. destruct H as [H1 H2]. split; [lia|]. replace (k - s) with (S (k - S s)) by lia. exact H2.
    + intros [H1 H2]. destruct (Nat.eq_dec k s) as [->|Hne]; [rewrite Nat.sub_diag in H2; injection H2 as ->; now left|]. right. apply IH. split; [lia|]. replace (k - s) with (S (k - S s)) in H2 by lia. exact H2.
Qed.
Theorem C109_names_partial : forall (L A : Type) fuel (ls : list L) reset merge srcs tgts starts ends g (ob ob1 o' : object L A) p d,
  construct fuel (Relabelled ls) reset merge srcs tgts starts ends g = Some ob -> after_setting computed_names ob ob1 -> load false p None None (save ob1 p None None d) = Some o' ->
  (exists names, o_attrs o' "node_to_label_dict"%string = Some (VLabels (Some names)) /\ forall k, aget Nat.eqb names k = nth_error ls k) /\
  (exists index, o_attrs ob "label_to_node_dict"%string = Some (VIndex index) /\ forall l k, In (l, k) index <-> nth_error ls k = Some l).
Proof.
  intros L A fuel ls reset merge srcs tgts starts ends g ob ob1 o' p d HC HS HL.
  destruct (C109_restored_partial L A fuel (Relabelled ls) reset merge srcs tgts starts ends g ob ob1 p d HC HS) as (o2 & HL2 & _ & HK & _). rewrite HL in HL2. injection HL2 as <-.
  destruct (construct_get _ _ _ _ _ _ _ _ _ _ HC) as (N & HN & _ & HG). destruct HS as (_ & HS & _). split.
  - exists (combine (seq 0 (length ls)) ls). split; [rewrite HK by (cbn; intuition discriminate); rewrite HS by (cbn; intuition discriminate); rewrite HG; reflexivity|]. intros k. rewrite aget_combine_seq. cbn. now rewrite Nat.sub_0_r.
  - exists (combine ls (seq 0 (length ls))). split; [rewrite HG; reflexivity|]. intros l k. rewrite in_combine_seq, Nat.sub_0_r. intuition lia.
Qed.
(** the two constructors make objects of their own class *)
Theorem C109_class : forall (L A : Type) fuel (nm : naming L) reset merge srcs tgts starts ends g (ob : object L A),
  (construct fuel nm reset merge srcs tgts starts ends g = Some ob -> o_inst ob = false /\ o_attrs ob "instantaneous_events"%string = Some (VFlag false)) /\
  (construct_inst nm reset srcs tgts starts = Some ob -> o_inst ob = true /\ o_attrs ob "instantaneous_events"%string = Some (VFlag true)).
Proof.
  intros L A fuel nm reset merge srcs tgts starts ends g ob. split.
  - unfold construct. destruct (make_net fuel reset merge srcs tgts starts ends) as [N|]; [|discriminate]. intros E. apply (f_equal (fun o => match o with Some ob => ob | None => ob end)) in E. subst ob. split; [reflexivity|]. destruct nm, merge; reflexivity.
  - unfold construct_inst. destruct (make_inst_net reset srcs tgts starts) as [N|]; [|discriminate]. intros E. apply (f_equal (fun o => match o with Some ob => ob | None => ob end)) in E. subst ob. split; [reflexivity|]. destruct nm; reflexivity.
Qed.
Example C109_applies : exists (ob ob1 : object nat nat), construct 2 (Relabelled [10; 20; 30]) true true [0; 1; 0] [1; 2; 1] [qn 0; qn 1; qn 2] [qn 3; qn 2; qn 4] [] = Some ob /\
  after_setting computed_names ob ob1 /\ o_attrs ob1 "T"%string = Some (VOther 7) /\ o_attrs ob1 "num_nodes"%string = Some (VCount 3) /\ o_attrs ob "num_events"%string = Some (VCount 2).
Proof.
  destruct (construct (A := nat) 2 (Relabelled [10; 20; 30]) true true [0; 1; 0] [1; 2; 1] [qn 0; qn 1; qn 2] [qn 3; qn 2; qn 4] []) as [ob|] eqn:E.
  2:{ exfalso. apply (f_equal (fun o => match o with Some _ => true | None => false end)) in E. vm_compute in E. discriminate E. }
  exists ob, (mkObj (o_inst ob) (setattr (o_attrs ob) "T"%string (VOther 7))). split; [reflexivity|]. split; [split; [reflexivity|split; cbn [o_attrs]]|split; [reflexivity|]].
  - intros k Hk. unfold setattr. destruct (String.eqb_spec k "T") as [->|]; [exfalso; apply Hk; cbn; tauto|reflexivity].
  - intros k Hk. unfold setattr. destruct (String.eqb_spec k "T") as [->|]; [discriminate|exact Hk].
  - assert (E' := E). apply (f_equal (fun o => match o with Some ob => match o_attrs ob "num_nodes"%string, o_attrs ob "num_events"%string with Some (VCount a), Some (VCount b) => Some (a, b) | _, _ => None end | None => None end)) in E'. vm_compute in E'.
    destruct ob as [i0 ob]. cbn [o_attrs]. unfold setattr. cbn [String.eqb]. change (("num_nodes" =? "T")%string) with false. destruct (ob "num_nodes"%string) as [[]|]; try discriminate E'. destruct (ob "num_events"%string) as [[]|]; try discriminate E'. injection E' as <- <-. split; reflexivity.
Qed.

(** * C110: choosing what to save and to load *)
Definition C110_statement : Prop := forall (L A : Type) (ob : object L A) p attributes d t names, o_attrs ob "events_table"%string = Some (VTable t) -> o_attrs ob "node_to_label_dict"%string = Some (VLabels names) ->
  load false p None None (save ob p None (Some attributes) d) <> None.
Theorem C110_without_table_refuted : ~ C110_statement.
Proof.
  intros H. refine (H nat nat (mkObj false (setattrs no_attrs [("events_table"%string, VTable []); ("node_to_label_dict"%string, VLabels None); ("times"%string, VTimes [])])) (str "net") ["times"]%string (fun _ => None) [] None eq_refl eq_refl _).
  apply load_missing. now left.
Qed.
(** What holds: if the list has the table and the labels, what is chosen both times is restored
    and the rest is as in a network made from the table. *)
Theorem C110_chosen_partial : forall (L A : Type) (ob : object L A) p matrices attributes matrices' attributes' d t names,
  o_attrs ob "events_table"%string = Some (VTable t) -> o_attrs ob "node_to_label_dict"%string = Some (VLabels names) ->
  In "events_table"%string attributes -> In "node_to_label_dict"%string attributes ->
  exists o', load false p (Some matrices') (Some attributes') (save ob p (Some matrices) (Some attributes) d) = Some o' /\
    (exists t', o_attrs o' "events_table"%string = Some (VTable t') /\ same_events t t' /\ durations_right t') /\
    o_attrs o' "node_to_label_dict"%string = Some (VLabels names) /\
    (forall k v, k <> "events_table"%string -> k <> "node_to_label_dict"%string -> In k (matrices ++ attributes) -> In k (matrices' ++ attributes') -> o_attrs ob k = Some v -> o_attrs o' k = Some v) /\
    (forall k, ~ In k (matrices ++ attributes) \/ ~ In k (matrices' ++ attributes') -> o_attrs o' k = from_table t names k).
Proof.
  intros L A ob p m a m' a' d t names Ht Hn H1 H2.
  assert (HW : forall m a k, wanted (Some m) (Some a) k = true <-> In k (m ++ a)).
  { intros m0 a0 k. unfold wanted, listed. cbn [or_default]. rewrite orb_true_iff, !existsb_exists, in_app_iff. split; (intros [H|H]; [left|right]).
    - destruct H as (x & Hx & E). apply String.eqb_eq in E. now subst.
    - destruct H as (x & Hx & E). apply String.eqb_eq in E. now subst.
    - exists k. split; [exact H|apply String.eqb_refl].
    - exists k. split; [exact H|apply String.eqb_refl]. }
  destruct (load_save ob p (Some m) (Some a) (Some m') (Some a') d t names Ht Hn) as (o' & HL & HO); [apply HW, in_or_app; now right|apply HW, in_or_app; now right|].
  eexists. split; [exact HL|]. cbn [o_attrs]. split; [|split; [|split]].
  - exists (with_durations t). rewrite HO. split; [reflexivity|apply with_durations_same].
  - rewrite HO. reflexivity.
  - intros k v N1 N2 I1 I2 E. rewrite HO. apply HW in I1, I2. rewrite I1, I2, E. cbn [listed existsb]. destruct (String.eqb_spec k "events_table"); [contradiction|]. destruct (String.eqb_spec k "node_to_label_dict"); [contradiction|]. reflexivity.
  - intros k HN. rewrite HO. assert (HF : (wanted (Some m) (Some a) k && wanted (Some m') (Some a') k)%bool = false). { apply not_true_iff_false. rewrite andb_true_iff, !HW. tauto. }
    rewrite <- andb_assoc, HF, andb_false_r. reflexivity.
Qed.
Example C110_applies : exists (ob : object nat nat) t names, o_attrs ob "events_table"%string = Some (VTable t) /\ t <> [] /\ o_attrs ob "node_to_label_dict"%string = Some (VLabels names) /\ o_attrs ob "times"%string <> None.
Proof.
  exists (mkObj false (setattrs no_attrs [("events_table"%string, VTable [(0, mkEv 0 1 (qn 0) (qn 1) (qn 1))]); ("node_to_label_dict"%string, VLabels None); ("times"%string, VTimes [qn 0; qn 1])])).
  do 2 eexists. split; [reflexivity|]. split; [discriminate|]. split; [reflexivity|discriminate].
Qed.

(** * C111: networks saved under different names *)
Definition C111_statement : Prop := forall (L A : Type) (ob1 ob2 : object L A) p1 p2 d, p1 <> p2 ->
  load false p1 None None (save ob2 p2 None None (save ob1 p1 None None d)) = load false p1 None None (save ob1 p1 None None d).
Definition net111 (n : nat) : object nat nat := mkObj false (setattrs no_attrs [("events_table"%string, VTable []); ("node_to_label_dict"%string, VLabels None); ("num_nodes"%string, VCount n)]).
Theorem C111_decimals_refuted : ~ C111_statement.
Proof.
  intros H. specialize (H nat nat (net111 1) (net111 2) (str "runs/net_0.1") (str "runs/net_0.2") (fun _ => None) ltac:(discriminate)).
  apply (f_equal (fun r => match r with Some o => o_attrs o "num_nodes"%string | None => None end)) in H. cbv in H. discriminate H.
Qed.
(** What holds: the names without their extensions are different. *)
Theorem C111_stems_partial : forall (L A : Type) (ob1 ob2 : object L A) p1 p2 s1 s2 m a m' a' m'' a'' d, stem_of p1 s1 -> stem_of p2 s2 -> s1 <> s2 ->
  load false p1 m'' a'' (save ob2 p2 m' a' (save ob1 p1 m a d)) = load false p1 m'' a'' (save ob1 p1 m a d).
Proof.
  intros L A ob1 ob2 p1 p2 s1 s2 m a m' a' m'' a'' d H1 H2 Hne. apply splitext_fst in H1, H2. unfold load, save, read, network_file. rewrite H1, H2.
  rewrite (write_other (write d (s1 ++ str ".pickle") Plain _) (s2 ++ str ".pickle") (s1 ++ str ".pickle")); [reflexivity|]. intros E. now apply app_inv_tail in E.
Qed.
(** in particular for names without dots *)
Theorem C111_dotless_partial : forall p, dotless p -> stem_of p p.
Proof.
  intros p Hp. right. split; [|reflexivity]. intros s e (E & e' & a & b & -> & He & Hs & (Hab & Hb & Ha) & _).
  apply (Hp a (b ++ "."%char :: e')); [|apply in_or_app; right; now left]. split; [rewrite E, Hab; symmetry; apply app_assoc|]. split; [|exact Ha].
  intros Hin. apply in_app_or in Hin as [Hin|[Hin|Hin]]; [contradiction|discriminate|contradiction].
Qed.
(** and for names with the extension .pickle *)
Example C111_applies : stem_of (str "runs.d/net.pickle") (str "runs.d/net") /\ stem_of (str "runs.d/net") (str "runs.d/net") /\ stem_of (str "a/.hidden") (str "a/.hidden") /\ dotless (str "runs.d/net").
Proof.
  split; [apply splitext_fst; reflexivity|]. split; [apply splitext_fst; reflexivity|]. split; [apply splitext_fst; reflexivity|].
  intros a b (E & H1 & [-> |[a' ->]]) Hin; [apply H1; cbn [app] in E; rewrite <- E; cbn; tauto|].
  assert (HR : rfind "/" (str "runs.d/net") = Some 6) by reflexivity. rewrite E, <- app_assoc in HR. cbn [app] in HR. rewrite rfind_app in HR by exact H1. injection HR as HR.
  assert (HL : length (a' ++ ["/"%char]) = 7) by (rewrite app_length; cbn; lia).
  assert (Eb : skipn (length (a' ++ ["/"%char])) ((a' ++ ["/"%char]) ++ b) = b) by (rewrite skipn_app, skipn_all, Nat.sub_diag; reflexivity).
  rewrite <- E, HL in Eb. cbn in Eb. rewrite <- Eb in Hin. cbn in Hin. intuition discriminate.
Qed.

(** * C112: files of inter-event matrices *)
Definition C112_statement : Prop := forall (P : Type) Z (ps : P) p lamda round tol compressed save_delta st d d' st' f st1,
  save_inter_T_to Z (Some ps) p lamda round tol compressed save_delta true st d = Some (d', st') -> save_inter_T Z lamda round tol save_delta st = Some (f, st1) ->
  load_inter_T_from p d' = Some (ps, load_inter_T f).
Lemma save_to_writes {P} Z (ps : P) p x round tol c sd st d f st1 : t_inter st <> [] -> save_inter_T Z x round tol sd st = Some (f, st1) ->
  save_inter_T_to Z (Some ps) p x round tol c sd true st d = Some (write d (written_name c p) (format_of c) (ps, f), st1).
Proof. intros Hn E. unfold save_inter_T_to. destruct (t_inter st); [congruence|]. now rewrite andb_false_r, E. Qed.
Lemma st41_inter : t_inter st41 <> [].
Proof. discriminate. Qed.
Theorem C112_extension_refuted : ~ C112_statement.
Proof.
  intros H. destruct (save_inter_T (zeroed 2) (Some 1%num) false 0%num true st41) as [[f st1]|] eqn:E; [|discriminate E].
  specialize (H nat (zeroed 2) 0 (str "inter.pickle") (Some 1%num) false 0%num true true st41 (fun _ => None) (write (fun _ => None) (str "inter.pickle.gz") Gzip (0, f)) st1 f st1).
  specialize (H (save_to_writes _ _ _ _ _ _ _ _ _ _ _ _ st41_inter E) E). cbn in H. discriminate H.
Qed.
(** also for names without extension *)
Definition C112_bare_statement : Prop := forall (P : Type) Z (ps : P) p lamda round tol compressed save_delta st d d' st' f st1, without_extension p ->
  save_inter_T_to Z (Some ps) p lamda round tol compressed save_delta true st d = Some (d', st') -> save_inter_T Z lamda round tol save_delta st = Some (f, st1) ->
  load_inter_T_from p d' = Some (ps, load_inter_T f).
Theorem C112_older_file_refuted : ~ C112_bare_statement.
Proof.
  intros H. destruct (save_inter_T (zeroed 2) (Some 1%num) false 0%num true st41) as [[f st1]|] eqn:E; [|discriminate E].
  set (d := write (fun _ => None) (str "inter.pickle") Plain (1, FSparse []) : disk (nat * file)).
  specialize (H nat (zeroed 2) 0 (str "inter") (Some 1%num) false 0%num true true st41 d (write d (str "inter.gz") Gzip (0, f)) st1 f st1 (proj1 (splitext_none (str "inter") eq_refl))).
  specialize (H (save_to_writes _ _ _ _ _ _ _ _ _ _ _ _ st41_inter E) E). cbn in H. discriminate H.
Qed.
(** What holds: with the extension of the format or another one, and without an uncompressed
    file of the same name, what is loaded is what was just saved; a file that exists is kept
    unless it is to be replaced. *)
Theorem C112_found_partial : forall (P : Type) Z (ps : P) p lamda round tol compressed save_delta replace st d d' st' f st1, findable d p compressed ->
  d (written_name compressed p) = None \/ replace = true ->
  save_inter_T_to Z (Some ps) p lamda round tol compressed save_delta replace st d = Some (d', st') -> save_inter_T Z lamda round tol save_delta st = Some (f, st1) ->
  st' = st1 /\ load_inter_T_from p d' = Some (ps, load_inter_T f).
Proof.
  intros P Z ps p x round tol c sd r st d d' st' f st1 HF HR HS HI. unfold save_inter_T_to in HS. destruct (t_inter st) as [|e es]; [discriminate|].
  assert (HE : (exists_file d (written_name c p) && negb r)%bool = false). { unfold exists_file. destruct HR as [-> | ->]; [reflexivity|apply andb_false_r]. }
  rewrite HE, HI in HS. injection HS as <- <-. split; [reflexivity|]. unfold load_inter_T_from. rewrite read_any_written by exact HF. reflexivity.
Qed.
Theorem C112_kept : forall (P : Type) Z (ps : option P) p lamda round tol compressed save_delta st d d' st', d (written_name compressed p) <> None ->
  save_inter_T_to Z ps p lamda round tol compressed save_delta false st d = Some (d', st') -> d' = d /\ st' = st.
Proof.
  intros P Z ps p x round tol c sd st d d' st' HN HS. unfold save_inter_T_to in HS. destruct (t_inter st) as [|e es]; [discriminate|]. unfold exists_file in HS. destruct (d (written_name c p)); [|contradiction]. injection HS as <- <-. auto.
Qed.
Example C112_applies : exists d' st', findable (fun _ => None : option (format * (nat * file))) (str "runs/inter_0.5") true /\
  save_inter_T_to (zeroed 2) (Some 3) (str "runs/inter_0.5") (Some 1%num) false 0%num true true false st41 (fun _ => None) = Some (d', st') /\ d' (str "runs/inter_0.5.gz") <> None.
Proof.
  do 2 eexists. split; [|split; [reflexivity|discriminate]]. right. right. split; [|split; [|now right]]; intros s Hs; apply splitext_with in Hs; cbv in Hs; discriminate Hs.
Qed.

(** * C113: T and T_lin *)
Definition C113_statement : Prop := forall (P : Type) (ps : P) n T p lamda round tol compressed d d', (forall k m, In (k, m) T -> good_mat n m) -> (0 <= tol)%num -> findable d p compressed ->
  save_T (Some ps) (Some T) p lamda round tol compressed d = Some d' ->
  exists T', load_T p d' = Some (ps, T') /\
    forall k m, aget qeqb T k = Some m -> lamda = None \/ lamda = Some k -> exists m', aget qeqb T' k = Some m' /\ same_kind m m' /\ kept_or_small n tol (entries_of m) (entries_of m').
Definition csr113 : csr := mkCsr [qn 1; qf 1 2; qf 1 2] [0; 0; 1] [0; 1; 3].
Definition ssm113 : ssm := mkS 2 [0; 1] csr113 1%num.
Definition mixed113 : list (num * tmat) := [(1%num, MCsr csr113); (2%num, MSparse ssm113)].
Lemma csr113_ok : csr_ok 2 csr113 /\ no_repetition csr113 /\ forall v, In v (c_data csr113) -> (0 <= v)%num /\ (v <= 1)%num.
Proof. split; [csr_ok_tac|]. split; [norep_tac 2|]. intros v [<-|[<-|[<-|[]]]]; split; discriminate. Qed.
Lemma ssm113_ok : ssm_ok ssm113.
Proof. split; [apply csr113_ok|]. split; [repeat constructor|]. intros i [<-|[<-|[]]]; cbn; lia. Qed.
Lemma good113 : good_mat 2 (MCsr csr113) /\ good_mat 2 (MSparse ssm113).
Proof. split; [apply csr113_ok|]. split; [apply ssm113_ok|]. split; [reflexivity|]. apply csr113_ok. Qed.
Lemma findable113 {C} (d : disk C) : findable d (str "T") false.
Proof. right. right. split; [|split; [|now left]]; intros s Hs; apply splitext_with in Hs; cbv in Hs; discriminate Hs. Qed.
Theorem C113_mixed_refuted : ~ C113_statement.
Proof.
  intros H. assert (HG : forall k m, In (k, m) mixed113 -> good_mat 2 m). { intros k m [E|[E|[]]]; injection E as _ <-; apply good113. }
  destruct (save_T (Some 0) (Some mixed113) (str "T") None false 0%num false (fun _ => None)) as [d'|] eqn:E; [|discriminate E].
  destruct (H nat 0 2 mixed113 (str "T") None false 0%num false _ d' HG (Qcle_refl _) (findable113 _) E) as (T' & HL & _). injection E as <-. discriminate HL.
Qed.
(** What holds: the matrices to save are all csr or all SparseStochMat. *)
Lemma save_any {P K : Type} (eqb : K -> K -> bool) (ps : P) n (l : list (K * tmat)) p round tol compressed d sp : l <> [] -> (forall k m, In (k, m) l -> good_mat n m /\ is_sparse m = sp) -> (0 <= tol)%num -> findable d p compressed ->
  exists f T', pack_all (Some ps) round tol l = Some f /\ load_T p (write d (written_name compressed p) (format_of compressed) f) = Some (ps, T') /\
    forall k m, aget eqb l k = Some m -> exists m', aget eqb T' k = Some m' /\ (same_kind m m' /\ kept_or_small n tol (entries_of m) (entries_of m') /\ (round = false -> m' = m)).
Proof.
  intros Hne HG Ht HF. destruct (pack_all_load eqb n ps round tol l sp Hne HG Ht) as (f & T' & E1 & E2 & E3 & E4). exists f, T'. split; [exact E1|]. split.
  - unfold load_T. rewrite read_any_written by exact HF. rewrite E3, E2. reflexivity.
  - intros k m Hk. exact (aget_pairs eqb l T' (fun a b => same_kind a b /\ kept_or_small n tol (entries_of a) (entries_of b) /\ (round = false -> b = a)) k m E4 Hk).
Qed.
Theorem C113_T_partial : forall (P : Type) (ps : P) n T p lamda round tol compressed d sp, (forall k m, In (k, m) T -> good_mat n m /\ is_sparse m = sp) -> (0 <= tol)%num -> findable d p compressed ->
  match lamda with Some x => aget qeqb T x <> None | None => T <> [] end ->
  exists d' T', save_T (Some ps) (Some T) p lamda round tol compressed d = Some d' /\ load_T p d' = Some (ps, T') /\
    forall k m, aget qeqb T k = Some m -> lamda = None \/ lamda = Some k -> exists m', aget qeqb T' k = Some m' /\ same_kind m m' /\ kept_or_small n tol (entries_of m) (entries_of m') /\ (round = false -> m' = m).
Proof.
  intros P ps n T p x round tol c d sp HG Ht HF HX. unfold save_T.
  assert (HS : exists l, select qeqb T x = Some l /\ l <> [] /\ (forall k m, In (k, m) l -> good_mat n m /\ is_sparse m = sp) /\ forall k m, aget qeqb T k = Some m -> x = None \/ x = Some k -> aget qeqb l k = Some m).
  { destruct x as [x|]; cbn [select]; [|exists T; auto]. destruct (aget qeqb T x) as [m|] eqn:E; [|contradiction]. exists [(x, m)]. split; [reflexivity|]. split; [discriminate|]. split.
    - intros k m' [Hk|[]]. injection Hk as <- <-. assert (Hin : exists k, In (k, m) T). { clear -E. induction T as [|[k v] T IH]; [discriminate|]. cbn [aget] in E. destruct (qeqb x k); [injection E as <-; exists k; now left|]. destruct (IH E) as [k' Hk']. exists k'. now right. } destruct Hin as [k Hin]. exact (HG k m Hin).
    - intros k m' Hk [Hx|Hx]; [discriminate|]. injection Hx as <-. cbn [aget]. destruct (qeqb_spec x x); [congruence|contradiction]. }
  destruct HS as (l & -> & Hne & HG' & HA). destruct (save_any qeqb ps n l p round tol c d sp Hne HG' Ht HF) as (f & T' & E1 & E2 & E3). rewrite E1. cbn [option_map]. eexists. exists T'. split; [reflexivity|]. split; [exact E2|]. intros k m Hk Hx. apply E3. now apply HA.
Qed.
Lemma pair_eqb_spec a b : reflect (a = b) (pair_eqb a b).
Proof. unfold pair_eqb. destruct a as [a1 a2], b as [b1 b2]. cbn. destruct (qeqb_spec a1 b1) as [->|]; cbn [andb]; [|constructor; congruence]. destruct (qeqb_spec a2 b2) as [->|]; constructor; congruence. Qed.
Theorem C113_T_lin_partial : forall (P : Type) (ps : P) n T p lamda round tol compressed d sp, (forall k m, In (k, m) T -> good_mat n m /\ is_sparse m = sp) -> (0 <= tol)%num -> findable d p compressed ->
  match lamda with Some x => exists t_s m, In ((x, t_s), m) T | None => T <> [] end ->
  exists d' T', save_T_lin (Some ps) (Some T) p lamda round tol compressed d = Some d' /\ load_T p d' = Some (ps, T') /\
    forall x t_s m, aget pair_eqb T (x, t_s) = Some m -> lamda = None \/ lamda = Some x -> exists m', aget pair_eqb T' (x, t_s) = Some m' /\ same_kind m m' /\ kept_or_small n tol (entries_of m) (entries_of m') /\ (round = false -> m' = m).
Proof.
  intros P ps n T p x round tol c d sp HG Ht HF HX. unfold save_T_lin.
  assert (HS : exists l, select_lin T x = Some l /\ l <> [] /\ (forall k m, In (k, m) l -> good_mat n m /\ is_sparse m = sp) /\ forall y t m, aget pair_eqb T (y, t) = Some m -> x = None \/ x = Some y -> aget pair_eqb l (y, t) = Some m).
  { destruct x as [x|]; cbn [select_lin]; [|exists T; auto]. set (l := filter _ T). assert (Hl : l <> []). { destruct HX as (t & m & Hin). intros E. assert (Hf : In ((x, t), m) l) by (apply filter_In; split; [exact Hin|]; cbn; now destruct (qeqb_spec x x)). rewrite E in Hf. contradiction. }
    exists l. split; [destruct l; [congruence|reflexivity]|]. split; [exact Hl|]. split; [intros k m Hin; apply filter_In in Hin as [Hin _]; now apply (HG k)|].
    intros y t m Hy [Hx|Hx]; [discriminate|]. injection Hx as <-. unfold l. clear -Hy. induction T as [|[k v] T IH]; [discriminate|]. cbn [aget filter] in *. cbn [fst]. destruct (pair_eqb_spec (x, t) k) as [<-|Hk].
    - cbn [fst]. destruct (qeqb_spec x x) as [_|]; [|contradiction]. cbn [aget]. destruct (pair_eqb_spec (x, t) (x, t)); [exact Hy|contradiction].
    - destruct (qeqb (fst k) x); [|now apply IH]. cbn [aget]. destruct (pair_eqb_spec (x, t) k); [contradiction|now apply IH]. }
  destruct HS as (l & -> & Hne & HG' & HA). destruct (save_any pair_eqb ps n l p round tol c d sp Hne HG' Ht HF) as (f & T' & E1 & E2 & E3). rewrite E1. cbn [option_map]. eexists. exists T'. split; [reflexivity|]. split; [exact E2|]. intros y t m Hk Hx. apply E3. now apply HA.
Qed.
(** lists of matrices are refused *)
Theorem C113_lists : forall (P : Type) (ps : option P) T p lamda round tol compressed d k l, In (k, MList l) T -> lamda = None -> save_T ps (Some T) p lamda round tol compressed d = None.
Proof.
  intros P ps T p x round tol c d k l Hin ->. unfold save_T. cbn [select]. unfold pack_all. destruct ps as [ps|]; [|now destruct T]. destruct T as [|km T]; [reflexivity|].
  destruct (all_some _) as [r|] eqn:E; [|reflexivity]. exfalso. apply all_some_Forall2 in E. revert Hin. clear -E. intros Hin. induction E as [|a b l1 l2 H HF IH]; [contradiction|]. destruct Hin as [-> |Hin]; [discriminate H|now apply IH].
Qed.
Example C113_applies : (forall k m, In (k, m) [(1%num, MSparse ssm113); (2%num, MSparse ssm113)] -> good_mat 2 m /\ is_sparse m = true) /\ findable (fun _ => None : option (format * tfile (P := nat) num)) (str "T") false.
Proof. split; [|apply findable113]. intros k m [E|[E|[]]]; injection E as _ <-; (split; [apply good113|reflexivity]). Qed.

(** * C114: inter-event matrices of the linear approximation *)
(** Everything that was computed is saved when no lamda is given. *)
Definition C114_statement (save_delta : bool) : Prop := forall n Z tol st, l_inter st <> [] -> NoDup (map fst (l_inter st)) ->
  (forall x per, In (x, per) (l_inter st) -> NoDup (map fst per) /\ forall t_s s l, In (t_s, (s, l)) per -> l <> [] /\ (save_delta = false -> s = true)) -> l_delta st = None ->
  exists f st', save_inter_T_lin Z None false tol save_delta st = Some (f, st') /\
    forall x per t_s s l, aget qeqb (l_inter st) x = Some per -> aget qeqb per t_s = Some (s, l) ->
      exists per' l', aget qeqb (load_inter_T_lin f) x = Some per' /\ aget qeqb per' t_s = Some l' /\ Forall2 (eqm n) l' l.
Definition st114 : lin_state := mkLs [(1%num, [(qn 10, (true, [ident; swap01]))]); (2%num, [(qn 10, (true, [swap01]))])] None.
Lemma st114_ok sd : l_inter st114 <> [] /\ NoDup (map fst (l_inter st114)) /\ (forall x per, In (x, per) (l_inter st114) -> NoDup (map fst per) /\ forall t_s s l, In (t_s, (s, l)) per -> l <> [] /\ (sd = false -> s = true)).
Proof.
  split; [discriminate|]. split; [repeat constructor; [intros [E|[]]; discriminate E|intros []]|]. intros x per [E|[E|[]]]; injection E as <- <-; (split; [repeat constructor; intros []|intros t s l [E|[]]; injection E as <- <- <-; split; [discriminate|reflexivity]]).
Qed.
Theorem C114_default_refuted : ~ C114_statement false.
Proof. intros H. destruct (st114_ok false) as (H1 & H2 & H3). destruct (H 2 (zeroed 2) 0%num st114 H1 H2 H3 eq_refl) as (f & st' & E & _). discriminate E. Qed.
Theorem C114_last_lamda_refuted : ~ C114_statement true.
Proof.
  intros H. destruct (st114_ok true) as (H1 & H2 & H3). destruct (H 2 (zeroed 2) 0%num st114 H1 H2 H3 eq_refl) as (f & st' & E & HL).
  destruct (HL 1%num _ (qn 10) true [ident; swap01] eq_refl eq_refl) as (per' & l' & E' & _).
  assert (EN : match save_inter_T_lin (zeroed 2) None false 0%num true st114 with Some (f, _) => match aget qeqb (load_inter_T_lin f) 1%num with None => true | Some _ => false end | None => false end = true) by (vm_compute; reflexivity).
  rewrite E in EN. rewrite E' in EN. discriminate EN.
Qed.
(** Saving the matrices of one lamda succeeds. *)
Definition C114_one_statement : Prop := forall Z lamda tol save_delta st per, aget qeqb (l_inter st) lamda = Some per -> NoDup (map fst per) ->
  (forall t_s s l, In (t_s, (s, l)) per -> l <> [] /\ (save_delta = false -> s = true)) -> save_inter_T_lin Z (Some lamda) false tol save_delta st <> None.
(** not when matrices for another stationary time were computed after the differences *)
Theorem C114_new_time_refuted : ~ C114_one_statement.
Proof.
  intros H. refine (H (zeroed 2) 1%num 0%num true (mkLs [(1%num, [(qn 10, (false, [ident])); (qn 20, (false, [ident]))])] (Some [(1%num, [(qn 10, [])])])) _ eq_refl _ _ eq_refl).
  - repeat constructor; [intros [E|[]]; discriminate E|intros []].
  - intros t s l [E|[E|[]]]; injection E as <- <- <-; (split; discriminate).
Qed.
Lemma aget_In {V} (d : list (num * V)) k v : aget qeqb d k = Some v -> In (k, v) d.
Proof. induction d as [|[x w] d IH]; cbn [aget]; [discriminate|]. destruct (qeqb_spec k x) as [->|]; [intros [= ->]; now left|intros H; right; now apply IH]. Qed.
Lemma aget_NoDup {V} (d : list (num * V)) k v : NoDup (map fst d) -> In (k, v) d -> aget qeqb d k = Some v.
Proof.
  induction d as [|[x w] d IH]; cbn [aget map fst]; intros HN Hk; [destruct Hk|]. inversion HN as [|? ? Hx Hd]; subst. destruct Hk as [E|Hin].
  - injection E as -> ->. now destruct (qeqb_spec k k).
  - destruct (qeqb_spec k x) as [->|]; [|now apply IH]. exfalso. apply Hx. apply in_map_iff. now exists (x, v).
Qed.
Lemma aget_same {V} (d : list (num * V)) k v : aget qeqb (aset qeqb d k v) k = Some v.
Proof. apply get_same. Qed.
Lemma lin_sparse_spec (Q : list mat -> list mat -> Prop) Z x round tol st per : aget qeqb (l_inter st) x = Some per -> (forall t_s s l, In (t_s, (s, l)) per -> l <> [] /\ s = true) ->
  (forall t_s s l, In (t_s, (s, l)) per -> Q (map (rounded Z round tol) l) l) ->
  exists per' st', lin_sparse Z x round tol st = Some (per', st') /\ forall t_s s l, aget qeqb per t_s = Some (s, l) -> exists l', aget qeqb per' t_s = Some l' /\ Q l' l.
Proof.
  intros HI HP HQ. unfold lin_sparse. rewrite HI. set (f := fun e : num * (bool * list mat) => match snd e with (true, A :: l) => Some (fst e, map (rounded Z round tol) (A :: l)) | _ => None end).
  assert (HX : Forall2 (fun a b => f a = Some b) per (map (fun e => (fst e, map (rounded Z round tol) (snd (snd e)))) per)).
  { clear HI HQ. induction per as [|[t [s l]] per IH]; [constructor|]. cbn [map fst snd]. destruct (HP t s l (or_introl eq_refl)) as [Hl ->]. constructor; [|apply IH; intros t' s' l' Hin; apply (HP t' s' l'); now right]. destruct l; [congruence|reflexivity]. }
  apply all_some_Forall2 in HX. rewrite HX. eexists. eexists. split; [reflexivity|]. intros t s l Ht. pose proof (HQ t s l (aget_In _ _ _ Ht)) as HQ'. exists (map (rounded Z round tol) l). split; [|exact HQ'].
  clear HI HP HQ HX HQ' f. induction per as [|[t' [s' l']] per IH]; [discriminate|]. cbn [aget map fst snd] in *. destruct (qeqb t t'); [now injection Ht as _ <-|now apply IH].
Qed.
Theorem C114_exact_partial : forall n Z lamda tol save_delta st per, aget qeqb (l_inter st) lamda = Some per -> NoDup (map fst per) ->
  (forall t_s s l, In (t_s, (s, l)) per -> l <> [] /\ (save_delta = false -> s = true)) ->
  (save_delta = true -> forall ds, l_delta st = Some ds -> aget qeqb ds lamda = None) ->
  exists f st' per', save_inter_T_lin Z (Some lamda) false tol save_delta st = Some (f, st') /\ aget qeqb (load_inter_T_lin f) lamda = Some per' /\
    forall t_s s l, aget qeqb per t_s = Some (s, l) -> exists l', aget qeqb per' t_s = Some l' /\ Forall2 (eqm n) l' l.
Proof.
  intros n Z x tol sd st per HI HN HP HD. destruct sd.
  - set (dper := map (fun e : num * (bool * list mat) => (fst e, map (rounded Z false tol) (mdiffs (snd (snd e))))) per).
    assert (HS : exists st', l_inter st' = l_inter st /\ (exists ds, l_delta st' = Some ds /\ aget qeqb ds x = Some dper) /\
              save_inter_T_lin Z (Some x) false tol true st = option_map (fun e => (LDelta [e], st')) (lin_deltas Z x false tol st')).
    { unfold save_inter_T_lin. destruct (l_delta st) as [ds|] eqn:ED; cbn [fst snd].
      - specialize (HD eq_refl ds eq_refl). rewrite ED, HD. unfold compute_delta_lin. rewrite HI, ED, HD. cbn [l_delta]. eexists. split; [|split; [|reflexivity]]; [reflexivity|]. cbn [l_delta]. eexists. split; [reflexivity|]. apply aget_same.
      - unfold compute_delta_lin. rewrite HI, ED. cbn [aget l_delta aset]. destruct (qeqb_spec x x) as [_|]; [|contradiction]. eexists. split; [|split; [|reflexivity]]; [reflexivity|]. cbn [l_delta]. eexists. split; [reflexivity|]. cbn [aget]. now destruct (qeqb_spec x x). }
    destruct HS as (st' & E1 & (ds & E2 & E3) & E4).
    assert (HL : lin_deltas Z x false tol st' = Some (x, map (fun e => (fst e, (hd ident (snd (snd e)), mdiffs (snd (snd e))))) per)).
    { unfold lin_deltas. rewrite E2, E1, HI, E3. set (f := fun e : num * (bool * list mat) => _). assert (HX : Forall2 (fun a b => f a = Some b) per (map (fun e => (fst e, (hd ident (snd (snd e)), mdiffs (snd (snd e))))) per)).
      { assert (HG : forall q, incl q per -> Forall2 (fun a b => f a = Some b) q (map (fun e => (fst e, (hd ident (snd (snd e)), mdiffs (snd (snd e))))) q)); [|apply HG, incl_refl].
        induction q as [|[t [s l]] q IH]; intros Hq; [constructor|]. constructor; [|apply IH; intros e He; apply Hq; now right]. unfold f. cbn [fst snd]. assert (Hin : In (t, (s, l)) per) by (apply Hq; now left).
        assert (EG : aget qeqb dper t = Some (mdiffs l)). { apply aget_NoDup; [unfold dper; rewrite map_map; exact HN|]. unfold dper. apply in_map_iff. exists (t, (s, l)). split; [|exact Hin]. cbn [fst snd]. unfold rounded. now rewrite map_id. }
        rewrite EG. destruct (HP t s l Hin) as [Hl _]. destruct l; [congruence|reflexivity]. }
      apply all_some_Forall2 in HX. rewrite HX. reflexivity. }
    rewrite HL in E4. do 3 eexists. split; [exact E4|]. cbn [load_inter_T_lin map fst snd aget]. destruct (qeqb_spec x x) as [_|]; [|contradiction]. split; [reflexivity|]. intros t s l Ht. exists (cumulate (hd ident l) (mdiffs l)). split.
    + clear - Ht. induction per as [|[t' [s' l']] per IH]; [discriminate|]. cbn [aget map fst snd] in *. destruct (qeqb t t'); [now injection Ht as _ <-|now apply IH].
    + destruct (HP t s l (aget_In _ _ _ Ht)) as [Hl _]. destruct l as [|A l]; [congruence|]. apply cumulate_mdiffs.
  - destruct (lin_sparse_spec (Forall2 (eqm n)) Z x false tol st per HI) as (per' & st' & E & HE).
    + intros t s l Hin. destruct (HP t s l Hin) as [H1 H2]. auto.
    + intros t s l Hin. unfold rounded. rewrite map_id. apply Forall2_refl_eqm.
    + unfold save_inter_T_lin. cbn [lin_sparse_all]. rewrite E. exists (LSparse [(x, per')]), st', per'. split; [now destruct (l_delta st)|]. cbn [load_inter_T_lin aget]. destruct (qeqb_spec x x) as [_|]; [|contradiction]. split; [reflexivity|exact HE].
Qed.
Theorem C114_rounded_sparse_partial : forall n Z lamda tol st per, zeroing n Z -> (0 <= tol)%num -> aget qeqb (l_inter st) lamda = Some per ->
  (forall t_s s l, In (t_s, (s, l)) per -> l <> [] /\ s = true /\ forall A, In A l -> stochastic n A) ->
  exists f st' per', save_inter_T_lin Z (Some lamda) true tol false st = Some (f, st') /\ aget qeqb (load_inter_T_lin f) lamda = Some per' /\
    forall t_s s l, aget qeqb per t_s = Some (s, l) -> exists l', aget qeqb per' t_s = Some l' /\ Forall2 (close n tol) l' l.
Proof.
  intros n Z x tol st per HZ Ht HI HP. destruct (lin_sparse_spec (Forall2 (close n tol)) Z x true tol st per HI) as (per' & st' & E & HE).
  - intros t s l Hin. destruct (HP t s l Hin) as (H1 & H2 & _). auto.
  - intros t s l Hin. destruct (HP t s l Hin) as (_ & _ & H3). clear - HZ Ht H3. change (map (rounded Z true tol) l) with (map (Z tol) l). induction l as [|A l IH]; constructor; [apply zeroing_close; auto; apply H3; now left|]. apply IH. intros B HB. apply H3. now right.
  - unfold save_inter_T_lin. cbn [lin_sparse_all]. rewrite E. exists (LSparse [(x, per')]), st', per'. split; [now destruct (l_delta st)|]. cbn [load_inter_T_lin aget]. destruct (qeqb_spec x x) as [_|]; [|contradiction]. split; [reflexivity|exact HE].
Qed.
(** without a lamda, when differences are known: those lamdas are saved, each like alone *)
Theorem C114_known_partial : forall Z round tol st ds f st', l_delta st = Some ds -> save_inter_T_lin Z None round tol true st = Some (f, st') ->
  map fst (load_inter_T_lin f) = map fst ds /\ forall lamda, In lamda (map fst ds) ->
    exists f1 st1, save_inter_T_lin Z (Some lamda) round tol true st = Some (f1, st1) /\ aget qeqb (load_inter_T_lin f) lamda = aget qeqb (load_inter_T_lin f1) lamda /\ aget qeqb (load_inter_T_lin f1) lamda <> None.
Proof.
  intros Z round tol st ds f st' HD HS. unfold save_inter_T_lin in HS. rewrite HD in HS. cbn [fst snd] in HS. rewrite HD in HS.
  destruct (all_some (map (fun x => lin_deltas Z x round tol st) (map fst ds))) as [r|] eqn:ER; [|discriminate]. cbn [option_map] in HS. injection HS as <- _.
  apply all_some_Forall2 in ER. assert (HF : forall x e, lin_deltas Z x round tol st = Some e -> fst e = x).
  { intros x e. unfold lin_deltas. rewrite HD. destruct (aget qeqb (l_inter st) x); [|discriminate]. destruct (aget qeqb ds x); [|discriminate]. destruct (all_some _); [|discriminate]. now intros [= <-]. }
  cbn [load_inter_T_lin]. split.
  - rewrite map_map. cbn [fst]. clear HD. induction ER as [|x e xs r Hx ER IH]; [reflexivity|]. cbn. now rewrite IH, (HF x e Hx).
  - intros x Hx. assert (HX : exists e, lin_deltas Z x round tol st = Some e /\ aget qeqb r x = Some (snd e)).
    { clear HD. induction ER as [|y e xs r Hy ER IH]; [destruct Hx|]. pose proof (HF y e Hy) as E. destruct e as [k v]. cbn in E. subst k. cbn [aget]. destruct (qeqb_spec x y) as [-> |Hne]; [now exists (y, v)|]. destruct Hx as [Hx|Hx]; [congruence|now apply IH]. }
    destruct HX as (e & E1 & E2). exists (LDelta [e]), st. split.
    + unfold save_inter_T_lin. rewrite HD. cbn [fst snd]. rewrite HD. assert (Hin : exists v, aget qeqb ds x = Some v).
      { clear - Hx. induction ds as [|[k v] ds IH]; [destruct Hx|]. cbn [aget map fst] in *. destruct (qeqb_spec x k) as [|Hne]; [now exists v|]. destruct Hx as [Hx|Hx]; [congruence|now apply IH]. }
      destruct Hin as [v ->]. rewrite HD, E1. reflexivity.
    + cbn [load_inter_T_lin map aget]. pose proof (HF x e E1) as E. rewrite E. destruct (qeqb_spec x x) as [_|]; [|contradiction]. split; [|discriminate].
      clear - E2. induction r as [|[k v] r IH]; [discriminate|]. cbn [aget map fst snd] in *. destruct (qeqb x k); [now injection E2 as ->|now apply IH].
Qed.
(** without a lamda, when no differences are known: the file is that of the last lamda *)
Definition delta_of (st : lin_state) (x : num) : option (list (num * list mat)) := match l_delta st with Some ds => aget qeqb ds x | None => None end.
Lemma fold_compute_delta Z round tol x per dper : dper = map (fun e : num * (bool * list mat) => (fst e, map (rounded Z round tol) (mdiffs (snd (snd e))))) per -> forall xs st, aget qeqb (l_inter st) x = Some per ->
  delta_of st x = None \/ delta_of st x = Some dper ->
  let st' := fold_left (fun s y => compute_delta_lin Z y round tol s) xs st in
  l_inter st' = l_inter st /\ (delta_of st' x = None \/ delta_of st' x = Some dper) /\ (delta_of st x = Some dper \/ In x xs -> delta_of st' x = Some dper).
Proof.
  intros HD. induction xs as [|y xs IH]; intros st HI HS; cbn [fold_left]; [split; [reflexivity|]; split; [exact HS|]; intros [H|[]]; exact H|].
  assert (H1 : l_inter (compute_delta_lin Z y round tol st) = l_inter st). { unfold compute_delta_lin. destruct (aget qeqb (l_inter st) y); [|reflexivity]. now destruct (aget qeqb match l_delta st with Some ds => ds | None => [] end y). }
  assert (H2 : x <> y -> delta_of (compute_delta_lin Z y round tol st) x = delta_of st x).
  { intros Hn. unfold compute_delta_lin, delta_of. destruct (aget qeqb (l_inter st) y); [|reflexivity]. destruct (l_delta st) as [ds|]; [destruct (aget qeqb ds y); cbn [l_delta]; [reflexivity|now rewrite get_other]|].
    cbn [aget l_delta aset]. destruct (qeqb_spec x y); [contradiction|reflexivity]. }
  assert (H3 : delta_of (compute_delta_lin Z x round tol st) x = Some dper).
  { unfold compute_delta_lin, delta_of in *. rewrite HI. destruct (l_delta st) as [ds|].
    - destruct (aget qeqb ds x) as [v|] eqn:E; cbn [l_delta]; [rewrite E; destruct HS; congruence|]. rewrite get_same. now rewrite HD.
    - cbn [aget l_delta aset]. destruct (qeqb_spec x x) as [_|]; [|contradiction]. now rewrite HD. }
  assert (H4 : delta_of (compute_delta_lin Z y round tol st) x = None \/ delta_of (compute_delta_lin Z y round tol st) x = Some dper).
  { destruct (qeqb_spec x y) as [<-|Hn]; [now right|]. now rewrite (H2 Hn). }
  destruct (IH (compute_delta_lin Z y round tol st)) as (A1 & A2 & A3); [now rewrite H1|exact H4|]. split; [congruence|]. split; [exact A2|].
  intros H. apply A3. destruct (qeqb_spec x y) as [<-|Hn]; [now left|]. rewrite (H2 Hn). destruct H as [H|[H|H]]; [now left|congruence|now right].
Qed.
Theorem C114_last_partial : forall Z round tol st pre lamda per, l_delta st = None -> l_inter st = pre ++ [(lamda, per)] -> NoDup (map fst (l_inter st)) ->
  option_map fst (save_inter_T_lin Z None round tol true st) = option_map fst (save_inter_T_lin Z (Some lamda) round tol true st).
Proof.
  intros Z round tol st pre x per HD HE HN. assert (HI : aget qeqb (l_inter st) x = Some per) by (apply aget_NoDup; [exact HN|]; rewrite HE; apply in_or_app; right; now left).
  assert (H0 : delta_of st x = None) by (unfold delta_of; now rewrite HD).
  assert (HL : forall xs, In x xs -> let st' := fold_left (fun s y => compute_delta_lin Z y round tol s) xs st in
     match l_delta st' with Some ds => match aget qeqb ds x with Some _ => st' | None => compute_delta_lin Z x round tol st' end | None => st' end = st' /\ l_delta st' <> None /\
     lin_deltas Z x round tol st' = option_map (pair x) (all_some (map (fun e : num * (bool * list mat) =>
       match aget qeqb (map (fun e : num * (bool * list mat) => (fst e, map (rounded Z round tol) (mdiffs (snd (snd e))))) per) (fst e), snd (snd e) with Some d, A :: _ => Some (fst e, (rounded Z round tol A, d)) | _, _ => None end) per))).
  { intros xs Hx st'. destruct (fold_compute_delta Z round tol x per _ eq_refl xs st HI (or_introl H0)) as (A1 & _ & A3). fold st' in A1, A3. specialize (A3 (or_intror Hx)). unfold delta_of in A3. destruct (l_delta st') as [ds|] eqn:ED; [|discriminate].
    rewrite A3. split; [reflexivity|]. split; [congruence|]. unfold lin_deltas. rewrite ED, A1, HI, A3. reflexivity. }
  unfold save_inter_T_lin. rewrite HD. cbn [fst snd]. replace (match rev (map fst (l_inter st)) with y :: _ => Some y | [] => None end) with (Some x) by (rewrite HE, map_app, rev_app_distr; reflexivity).
  destruct (HL (map fst (l_inter st))) as (B1 & B2 & B3); [rewrite HE, map_app; apply in_or_app; right; now left|]. destruct (HL [x] (or_introl eq_refl)) as (C1 & C2 & C3). cbn [fold_left] in C1, C2, C3.
  rewrite B1, C1. clear HL B1 C1. destruct (l_delta (fold_left _ _ _)); [|contradiction]. destruct (l_delta (compute_delta_lin _ _ _ _ _)); [|contradiction]. rewrite B3, C3.
  destruct (option_map (pair x) _); reflexivity.
Qed.
(** saving does not use the matrices up: without rounding it can be repeated, for any lamda *)
Theorem C114_again_partial : forall Z lamda tol st f st' lamda' save_delta, save_inter_T_lin Z (Some lamda) false tol false st = Some (f, st') ->
  option_map fst (save_inter_T_lin Z (Some lamda') false tol save_delta st') = option_map fst (save_inter_T_lin Z (Some lamda') false tol save_delta st).
Proof.
  intros Z x tol st f st' y sd HS. assert (HX : (forall z, aget qeqb (l_inter st') z = aget qeqb (l_inter st) z) /\ l_delta st' = l_delta st).
  { unfold save_inter_T_lin in HS. cbn [lin_sparse_all] in HS. assert (HL : exists per, lin_sparse Z x false tol st = Some (per, st')).
    { destruct (l_delta st); (destruct (lin_sparse Z x false tol st) as [[per st1]|]; [|discriminate HS]; injection HS as _ <-; now exists per). }
    clear HS. destruct HL as [per HL]. unfold lin_sparse in HL. destruct (aget qeqb (l_inter st) x) as [p|] eqn:EP; [|discriminate]. destruct (all_some _) as [per'|] eqn:EA; [|discriminate]. injection HL as _ <-. cbn [l_inter l_delta]. split; [|reflexivity].
    intros z. destruct (qeqb_spec z x) as [-> |Hn]; [|now rewrite get_other]. rewrite get_same, EP. f_equal. apply all_some_Forall2 in EA. clear - EA. induction EA as [|[t [s l]] b p q H HF IH]; [reflexivity|].
    cbn [map]. rewrite IH. f_equal. cbn [snd fst] in H. destruct s; [|discriminate]. destruct l as [|A l]; [discriminate|]. injection H as <-. cbn [fst snd]. unfold rounded. now rewrite map_id. }
  destruct HX as [H1 H2]. assert (HC : forall s s', (forall z, aget qeqb (l_inter s') z = aget qeqb (l_inter s) z) -> l_delta s' = l_delta s -> lin_deltas Z y false tol s' = lin_deltas Z y false tol s).
  { intros s s' E1 E2. unfold lin_deltas. now rewrite E1, E2. }
  assert (HD : l_delta (compute_delta_lin Z y false tol st') = l_delta (compute_delta_lin Z y false tol st) /\ forall z, aget qeqb (l_inter (compute_delta_lin Z y false tol st')) z = aget qeqb (l_inter (compute_delta_lin Z y false tol st)) z).
  { unfold compute_delta_lin. rewrite H1, H2. destruct (aget qeqb (l_inter st) y) as [per|]; [|split; [exact H2|exact H1]]. destruct (aget qeqb match l_delta st with Some ds => ds | None => [] end y); cbn [l_delta l_inter]; (split; [reflexivity|exact H1]). }
  destruct HD as [HD1 HD2]. destruct sd.
  - unfold save_inter_T_lin. rewrite H2. destruct (l_delta st) as [ds|] eqn:ED; cbn [fst snd].
    + rewrite H2, ED. destruct (aget qeqb ds y) as [v|].
      * rewrite H2, ED, (HC st st' H1) by congruence. destruct (lin_deltas Z y false tol st); reflexivity.
      * rewrite HD1. destruct (l_delta (compute_delta_lin Z y false tol st)) as [ds2|] eqn:E2; [|reflexivity]. rewrite (HC _ _ HD2) by congruence. destruct (lin_deltas Z y false tol _); reflexivity.
    + rewrite HD1. destruct (l_delta (compute_delta_lin Z y false tol st)) as [ds|] eqn:EC; [|now rewrite HD1, EC].
      destruct (aget qeqb ds y) as [v|] eqn:EV.
      * rewrite HD1, EC, (HC _ _ HD2) by congruence. destruct (lin_deltas Z y false tol _); reflexivity.
      * exfalso. unfold compute_delta_lin in EC. rewrite ED in EC. destruct (aget qeqb (l_inter st) y); [|congruence]. cbn [aget l_delta aset] in EC. injection EC as <-. cbn [aget] in EV. destruct (qeqb_spec y y); [discriminate|contradiction].
  - unfold save_inter_T_lin. cbn [lin_sparse_all]. unfold lin_sparse. rewrite H1. destruct (aget qeqb (l_inter st) y) as [per|]; [|now destruct (l_delta st), (l_delta st')].
    destruct (all_some _); [|now destruct (l_delta st), (l_delta st')]. now destruct (l_delta st), (l_delta st').
Qed.
Example C114_applies : exists per, aget qeqb (l_inter st114) 1%num = Some per /\ NoDup (map fst per) /\ (forall t_s s l, In (t_s, (s, l)) per -> l <> [] /\ s = true /\ forall A, In A l -> stochastic 2 A).
Proof.
  eexists. split; [reflexivity|]. split; [repeat constructor; intros []|]. intros t s l [E|[]]. injection E as <- <- <-. split; [discriminate|]. split; [reflexivity|]. apply two_cases; [apply stochastic_ident|apply swap01_stochastic].
Qed.

(* the differences of one lamda are known after they were saved *)
Example C114_known_applies : exists f st' ds, save_inter_T_lin (zeroed 2) (Some 1%num) false (qf 1 100000000) true st114 = Some (f, st') /\ l_delta st' = Some ds /\ map fst ds = [1%num] /\
  exists r, save_inter_T_lin (zeroed 2) None false (qf 1 100000000) true st' = Some r.
Proof. do 3 eexists. split; [reflexivity|]. split; [reflexivity|]. split; [reflexivity|]. eexists. reflexivity. Qed.

Print Assumptions C109_labels_refuted.
Print Assumptions C109_instantaneous_refuted.
Print Assumptions C109_restored_partial.
Print Assumptions C109_counts_partial.
Print Assumptions C109_names_partial.
Print Assumptions C109_class.
Print Assumptions C110_without_table_refuted.
Print Assumptions C110_chosen_partial.
Print Assumptions C111_decimals_refuted.
Print Assumptions C111_stems_partial.
Print Assumptions C111_dotless_partial.
Print Assumptions C112_extension_refuted.
Print Assumptions C112_older_file_refuted.
Print Assumptions C112_found_partial.
Print Assumptions C112_kept.
Print Assumptions C113_mixed_refuted.
Print Assumptions C113_T_partial.
Print Assumptions C113_T_lin_partial.
Print Assumptions C113_lists.
Print Assumptions C114_default_refuted.
Print Assumptions C114_last_lamda_refuted.
Print Assumptions C114_new_time_refuted.
Print Assumptions C114_exact_partial.
Print Assumptions C114_known_partial.
Print Assumptions C114_last_partial.
Print Assumptions C114_again_partial.
Print Assumptions C114_rounded_sparse_partial.
