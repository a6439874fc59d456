(** Proofs about the model of files. *)
From Coq Require Import Ascii String.
From Verif Require Import Base LouvainModel PartitionProofs SparseModel SparseSpec SparseProofs SparseConvProofs EventsModel EventsSpec EventsProofs EventsProps
  TransModel TransSpec TransProofs FileModel FileSpec.

(** * Names *)
Lemma path_eqb_spec a b : reflect (a = b) (path_eqb a b).
Proof.
  revert b. induction a as [|x a IH]; intros [|y b]; cbn [path_eqb]; try (constructor; congruence).
  destruct (Ascii.eqb_spec x y) as [->|H]; cbn [andb]; [|constructor; congruence]. destruct (IH b) as [->|H]; constructor; congruence.
Qed.
Lemma rfind_none c p : rfind c p = None <-> ~ In c p.
Proof.
  induction p as [|x p IH]; cbn [rfind In]; [tauto|]. destruct (rfind c p) as [i|].
  - split; [discriminate|]. intros H. exfalso. apply H. right. apply Decidable.not_not; [|intros Hn; apply IH in Hn; discriminate].
    destruct (in_dec ascii_dec c p); [now left|now right].
  - destruct (Ascii.eqb_spec x c) as [->|Hx]; split; try discriminate; try reflexivity; [intros H; exfalso; apply H; now left|].
    intros _ [H|H]; [contradiction|]. now apply (proj1 IH).
Qed.
Lemma rfind_some c p i : rfind c p = Some i -> p = firstn i p ++ c :: skipn (S i) p /\ ~ In c (skipn (S i) p).
Proof.
  revert i. induction p as [|x p IH]; cbn [rfind]; intros i H; [discriminate|]. destruct (rfind c p) as [j|] eqn:E.
  - injection H as <-. destruct (IH j eq_refl) as [H1 H2]. split; [|exact H2]. cbn [firstn app]. f_equal. exact H1.
  - destruct (Ascii.eqb_spec x c) as [->|Hx]; [|discriminate]. injection H as <-. split; [reflexivity|]. now apply rfind_none.
Qed.
Lemma rfind_app c l r : ~ In c r -> rfind c (l ++ c :: r) = Some (length l).
Proof.
  intros H. induction l as [|x l IH]; cbn [app rfind length].
  - rewrite (proj2 (rfind_none c r) H), Ascii.eqb_refl. reflexivity.
  - now rewrite IH.
Qed.
Lemma skipn_sub {X} k (l : list X) x : In x (skipn k l) -> In x l.
Proof. intros H. rewrite <- (firstn_skipn k l). apply in_or_app. now right. Qed.
Lemma skipn_later {X} j k (l : list X) x : j <= k -> In x (skipn k l) -> In x (skipn j l).
Proof.
  revert j k. induction l as [|a l IH]; intros j k Hl H; [rewrite skipn_nil in H; contradiction|]. destruct j as [|j]; [now apply skipn_sub in H|].
  destruct k as [|k]; [lia|]. apply (IH j k); [lia|exact H].
Qed.
Lemma splitext_with p s e : with_extension p s e -> splitext p = (s, e).
Proof.
  intros (Hp & e' & a & b & He & Hd & Hs & (Hab & Hb & Ha) & c & Hc & Hcd). subst e.
  assert (E0 : rfind "." p = Some (length s)) by (rewrite Hp; now apply rfind_app). unfold splitext. rewrite E0.
  assert (E : match rfind "/" p with Some i => S i | None => 0 end = length a).
  { rewrite Hp, Hab. destruct Ha as [-> |[a' ->]].
    - rewrite (proj2 (rfind_none _ _)); [reflexivity|]. cbn [app]. rewrite in_app_iff. intros [H|[H|H]]; [contradiction|discriminate H|contradiction].
    - rewrite <- !app_assoc. cbn [app]. rewrite rfind_app; [rewrite app_length; cbn; lia|]. rewrite in_app_iff. intros [H|[H|H]]; [contradiction|discriminate H|contradiction]. }
  rewrite E. assert (E1 : firstn (length s) p = s) by (rewrite Hp, firstn_app, firstn_all, Nat.sub_diag; cbn; apply app_nil_r).
  assert (E2 : skipn (length s) p = "."%char :: e') by (rewrite Hp, skipn_app, skipn_all, Nat.sub_diag; reflexivity).
  rewrite E1, E2. assert (E3 : skipn (length a) s = b) by (rewrite Hab, skipn_app, skipn_all, Nat.sub_diag; reflexivity). rewrite E3.
  assert (E4 : (length a <=? length s) = true) by (apply Nat.leb_le; rewrite Hab, app_length; lia). rewrite E4. cbn [andb].
  replace (existsb (fun c0 => negb (Ascii.eqb c0 ".")) b) with true; [reflexivity|]. symmetry. apply existsb_exists. exists c. split; [exact Hc|]. now destruct (Ascii.eqb_spec c ".").
Qed.
Lemma splitext_none p : snd (splitext p) = [] -> without_extension p /\ fst (splitext p) = p.
Proof.
  intros H. split.
  - intros s e He. pose proof He as (_ & e' & _ & _ & E & _). rewrite (splitext_with p s e He) in H. cbn in H. rewrite E in H. discriminate H.
  - revert H. unfold splitext. destruct (rfind "." p) as [d|] eqn:E; [|reflexivity]. destruct (_ && _)%bool; [|reflexivity]. cbn [fst snd]. intros H. destruct (rfind_some _ _ _ E) as [H1 _].
    assert (Hl : length (firstn d p) = d). { apply firstn_length_le. destruct (le_lt_dec d (length p)); [assumption|]. rewrite firstn_all2 in H1 by lia. apply (f_equal (@length ascii)) in H1. rewrite app_length in H1. cbn in H1. lia. }
    rewrite H1 in H. rewrite <- Hl in H at 1. rewrite skipn_app, skipn_all, Nat.sub_diag in H. discriminate H.
Qed.
Lemma splitext_cases p s e : splitext p = (s, e) -> with_extension p s e \/ (without_extension p /\ s = p /\ e = []).
Proof.
  intros H. destruct e as [|c0 e0]; [right; destruct (splitext_none p) as [H1 H2]; [now rewrite H|]; rewrite H in H2; cbn in H2; auto|]. left.
  revert H. unfold splitext. destruct (rfind "." p) as [d|] eqn:E; [|discriminate]. destruct (rfind_some _ _ _ E) as [Hp Hd].
  assert (Hl : length (firstn d p) = d). { apply firstn_length_le. destruct (le_lt_dec d (length p)); [assumption|]. rewrite firstn_all2 in Hp by lia. apply (f_equal (@length ascii)) in Hp. rewrite app_length in Hp. cbn in Hp. lia. }
  assert (Hk : skipn d p = "."%char :: skipn (S d) p). { rewrite Hp at 1. rewrite <- Hl at 1. rewrite skipn_app, skipn_all, Nat.sub_diag. reflexivity. }
  set (ni := match rfind "/" p with Some i => S i | None => 0 end). destruct (Nat.leb_spec ni d) as [Hn|Hn]; cbn [andb]; [|discriminate].
  destruct (existsb _ _) eqn:EX; [|discriminate]. intros H. injection H as <- H. rewrite <- H. apply existsb_exists in EX as (c & Hc & Hcd).
  split; [symmetry; apply firstn_skipn|]. exists (skipn (S d) p), (firstn ni p), (skipn ni (firstn d p)). split; [exact Hk|]. split; [exact Hd|].
  assert (Hsl : ~ In "/"%char (skipn ni p)). { unfold ni. destruct (rfind "/" p) as [i|] eqn:E2; [now apply rfind_some|]. cbn. now apply rfind_none. }
  split; [|split; [split; [|split]|]].
  - intros Hin. apply Hsl. revert Hin. apply skipn_later. lia.
  - rewrite <- (firstn_skipn ni (firstn d p)) at 1. rewrite firstn_firstn, Nat.min_l by exact Hn. reflexivity.
  - intros Hin. apply Hsl. rewrite <- (firstn_skipn d p). rewrite skipn_app. apply in_or_app. now left.
  - unfold ni. destruct (rfind "/" p) as [i|] eqn:E2; [right|now left]. exists (firstn i p). destruct (rfind_some _ _ _ E2) as [Hq _].
    assert (Hi : length (firstn i p) = i). { apply firstn_length_le. destruct (le_lt_dec i (length p)); [assumption|]. rewrite firstn_all2 in Hq by lia. apply (f_equal (@length ascii)) in Hq. rewrite app_length in Hq. cbn in Hq. lia. }
    rewrite Hq at 1. rewrite firstn_app, Hi. replace (S i - i) with 1 by lia. rewrite firstn_all2 by lia. reflexivity.
  - exists c. split; [exact Hc|]. now destruct (Ascii.eqb_spec c ".").
Qed.
Lemma splitext_fst p s : fst (splitext p) = s <-> stem_of p s.
Proof.
  split.
  - intros <-. destruct (splitext p) as [s e] eqn:E. destruct (splitext_cases p s e E) as [H|(H1 & H2 & H3)]; cbn [fst]; [left; now exists e|right; auto].
  - intros [[e H]|[H ->]]; [now rewrite (splitext_with p s e H)|]. destruct (splitext p) as [s e] eqn:E. destruct (splitext_cases p s e E) as [H1|(H1 & H2 & H3)]; [|exact H2]. exfalso. exact (H _ _ H1).
Qed.
Lemma ext_is p c e : snd (splitext p) = c :: e <-> exists s, with_extension p s (c :: e).
Proof.
  split.
  - intros H. destruct (splitext p) as [s e'] eqn:E. cbn in H. subst e'. destruct (splitext_cases p s _ E) as [H|(_ & _ & H)]; [now exists s|discriminate].
  - intros [s H]. now rewrite (splitext_with _ _ _ H).
Qed.

(** * Files *)
Lemma write_same {C} (d : disk C) p f c : write d p f c p = Some (f, c).
Proof. unfold write. now destruct (path_eqb_spec p p). Qed.
Lemma write_other {C} (d : disk C) p q f c : q <> p -> write d p f c q = d q.
Proof. intros H. unfold write. now destruct (path_eqb_spec q p). Qed.
Lemma read_written {C} (d : disk C) p b c : read (write d p (format_of b) c) p (format_of b) = Some c.
Proof. unfold read. rewrite write_same. now destruct b. Qed.
Lemma ext_gz p : path_eqb (snd (splitext p)) (str ".gz") = true <-> exists s, with_extension p s (str ".gz").
Proof.
  assert (HE := ext_is p "."%char (str "gz")). change ("."%char :: str "gz") with (str ".gz") in HE. rewrite <- HE. destruct (path_eqb_spec (snd (splitext p)) (str ".gz")); split; intros; try assumption; try discriminate; try reflexivity; contradiction.
Qed.
Lemma ext_pickle p : path_eqb (snd (splitext p)) (str ".pickle") = true <-> exists s, with_extension p s (str ".pickle").
Proof.
  assert (HE := ext_is p "."%char (str "pickle")). change ("."%char :: str "pickle") with (str ".pickle") in HE. rewrite <- HE. destruct (path_eqb_spec (snd (splitext p)) (str ".pickle")); split; intros; try assumption; try discriminate; try reflexivity; contradiction.
Qed.
Lemma read_any_written {C} (d : disk C) p b c : findable d p b -> read_any (write d (written_name b p) (format_of b) c) p = Some c.
Proof.
  intros [[-> H]|[[-> H]|(H1 & H2 & H3)]]; unfold read_any, written_name.
  - apply ext_gz in H. rewrite H. apply (read_written d p true).
  - apply ext_pickle in H. rewrite H. replace (path_eqb (snd (splitext p)) (str ".gz")) with false; [apply (read_written d p false)|].
    destruct (path_eqb_spec (snd (splitext p)) (str ".pickle")) as [->|]; [reflexivity|discriminate].
  - replace (path_eqb (snd (splitext p)) (str ".gz")) with false by (symmetry; apply not_true_iff_false; rewrite ext_gz; intros [s Hs]; exact (H1 s Hs)).
    replace (path_eqb (snd (splitext p)) (str ".pickle")) with false by (symmetry; apply not_true_iff_false; rewrite ext_pickle; intros [s Hs]; exact (H2 s Hs)).
    destruct b.
    + assert (Hne : p ++ str ".pickle" <> p ++ str ".gz") by (intros E; apply app_inv_head in E; discriminate). destruct H3 as [|H3]; [discriminate|].
      unfold exists_file. rewrite write_other, H3 by exact Hne. rewrite write_same. apply (read_written d _ true).
    + unfold exists_file. rewrite write_same. apply (read_written d _ false).
Qed.

(** * Dictionaries with names as keys *)
Section Attrs.
Context {L A : Type}.
Implicit Types (o : attrs L A) (l : dict L A).
Lemma aget_aset k k' v l : aget String.eqb (aset String.eqb l k v) k' = if String.eqb k' k then Some v else aget String.eqb l k'.
Proof.
  induction l as [|[x w] l IH]; cbn [aset aget].
  - destruct (String.eqb_spec k' k) as [->|]; reflexivity.
  - destruct (String.eqb_spec k x) as [->|H]; cbn [aget]; [now destruct (String.eqb k' x)|]. rewrite IH. destruct (String.eqb_spec k' x) as [->|]; [|reflexivity]. destruct (String.eqb_spec x k) as [->|]; [contradiction|reflexivity].
Qed.
Lemma aset_keys k v l : NoDup (map fst l) -> NoDup (map fst (aset String.eqb l k v)) /\ forall x, In x (map fst (aset String.eqb l k v)) <-> x = k \/ In x (map fst l).
Proof.
  induction l as [|[x w] l IH]; cbn [aset map fst]; intros HN.
  - split; [constructor; [intros []|constructor]|]. intros y. cbn. intuition.
  - inversion HN as [|? ? Hx Hl]; subst. destruct (String.eqb_spec k x) as [->|H]; cbn [map fst].
    + split; [exact HN|]. intros y. cbn. intuition.
    + destruct (IH Hl) as [H1 H2]. split; [constructor; [rewrite H2; intros [E|E]; [congruence|contradiction]|exact H1]|]. intros y. cbn. rewrite H2. intuition.
Qed.
Lemma collect_keys o names : forall l, NoDup (map fst l) -> NoDup (map fst (collect o names l)).
Proof.
  induction names as [|k names IH]; intros l HN; [exact HN|]. cbn [collect fold_left]. apply IH. destruct (o k); [now apply aset_keys|exact HN].
Qed.
Lemma aget_collect o names k : forall l, aget String.eqb (collect o names l) k =
  if listed k names then match o k with Some v => Some v | None => aget String.eqb l k end else aget String.eqb l k.
Proof.
  induction names as [|x names IH]; intros l; [reflexivity|]. cbn [collect fold_left listed existsb]. change (fold_left _ names ?l0) with (collect o names l0). rewrite IH. fold (listed k names).
  destruct (String.eqb_spec k x) as [->|H]; cbn [orb].
  - destruct (o x) as [v|]; [|now destruct (listed x names)]. rewrite aget_aset, String.eqb_refl. now destruct (listed x names).
  - destruct (o x) as [v|]; [|reflexivity]. rewrite aget_aset. destruct (String.eqb_spec k x); [contradiction|reflexivity].
Qed.
Lemma aget_filter (f : string -> bool) l k : aget String.eqb (filter (fun kv => f (fst kv)) l) k = if f k then aget String.eqb l k else None.
Proof.
  induction l as [|[x v] l IH]; cbn [filter aget fst]; [now destruct (f k)|]. destruct (f x) eqn:E; cbn [aget]; rewrite IH; destruct (String.eqb_spec k x) as [->|]; try reflexivity; now rewrite E.
Qed.
Lemma keys_filter (f : string -> bool) l : NoDup (map fst l) -> NoDup (map fst (filter (fun kv => f (fst kv)) l)).
Proof.
  induction l as [|[x v] l IH]; cbn [filter map fst]; intros HN; [constructor|]. inversion HN as [|? ? Hx Hl]; subst. destruct (f x); cbn [map fst]; [|now apply IH]. constructor; [|now apply IH].
  intros Hin. apply Hx. apply in_map_iff in Hin as (e & <- & He). apply filter_In in He as [He _]. apply in_map_iff. now exists e.
Qed.
Lemma aget_none l k : ~ In k (map fst l) -> aget String.eqb l k = None.
Proof. induction l as [|[x v] l IH]; cbn [map fst aget In]; intros H; [reflexivity|]. destruct (String.eqb_spec k x) as [->|]; [exfalso; apply H; now left|]. apply IH. intros Hin. apply H. now right. Qed.
Lemma setattrs_get l k : NoDup (map fst l) -> forall o, setattrs o l k = match aget String.eqb l k with Some v => Some v | None => o k end.
Proof.
  induction l as [|[x v] l IH]; intros HN o; [reflexivity|]. inversion HN as [|? ? Hx Hl]; subst. unfold setattrs. cbn [fold_left aget fst snd]. change (fold_left _ l ?o0) with (setattrs o0 l). rewrite (IH Hl). unfold setattr.
  destruct (String.eqb_spec k x) as [->|]; [|reflexivity]. now rewrite aget_none.
Qed.
(** what is in the file *)
Definition wanted (matrices attributes : option (list string)) (k : string) : bool :=
  (listed k (or_default matrices default_matrices) || listed k (or_default attributes default_attributes))%bool.
Lemma load_save (ob : object L A) p m a m' a' d t names : o_attrs ob "events_table"%string = Some (VTable t) -> o_attrs ob "node_to_label_dict"%string = Some (VLabels names) ->
  wanted m a "events_table" = true -> wanted m a "node_to_label_dict" = true ->
  exists o', load false p m' a' (save ob p m a d) = Some (mkObj false o') /\
  forall k, o' k = if (negb (listed k ["events_table"; "node_to_label_dict"]%string) && wanted m a k && wanted m' a' k)%bool
                   then match o_attrs ob k with Some v => Some v | None => from_table t names k end else from_table t names k.
Proof.
  intros Ht Hn W1 W2. unfold load, save. change Plain with (format_of false). rewrite read_written. set (c := collect (o_attrs ob) (or_default m default_matrices) _).
  assert (HC : forall k, aget String.eqb c k = if wanted m a k then o_attrs ob k else None).
  { intros k. unfold c. rewrite !aget_collect. cbn [aget]. unfold wanted. destruct (listed k (or_default m default_matrices)), (listed k (or_default a default_attributes)); cbn [orb]; now destruct (o_attrs ob k). }
  assert (HN : NoDup (map fst c)) by (apply collect_keys, collect_keys; constructor).
  rewrite (HC "events_table"%string), (HC "node_to_label_dict"%string), W1, W2, Ht, Hn. eexists. split; [reflexivity|]. intros k.
  set (rest := filter _ c). set (w := filter _ rest).
  assert (Hw : aget String.eqb w k = if (negb (listed k ["events_table"; "node_to_label_dict"]%string) && wanted m' a' k)%bool then aget String.eqb c k else None).
  { unfold w. rewrite (aget_filter (wanted m' a')). unfold rest. rewrite (aget_filter (fun k => negb (listed k ["events_table"; "node_to_label_dict"]%string))). destruct (wanted m' a' k), (listed k ["events_table"; "node_to_label_dict"]%string); reflexivity. }
  rewrite setattrs_get. 2:{ unfold w. apply (keys_filter (wanted m' a')). unfold rest. apply (keys_filter (fun k => negb (listed k ["events_table"; "node_to_label_dict"]%string))). exact HN. }
  rewrite Hw, HC. destruct (listed k ["events_table"; "node_to_label_dict"]%string), (wanted m' a' k), (wanted m a k); cbn [negb andb]; try reflexivity. 
Qed.
Lemma load_missing (ob : object L A) inst p m a m' a' d : wanted m a "events_table" = false \/ wanted m a "node_to_label_dict" = false -> load inst p m' a' (save ob p m a d) = None.
Proof.
  intros W. unfold load, save. change Plain with (format_of false). rewrite read_written. set (c := collect (o_attrs ob) (or_default m default_matrices) _).
  assert (HC : forall k, aget String.eqb c k = if wanted m a k then o_attrs ob k else None).
  { intros k. unfold c. rewrite !aget_collect. cbn [aget]. unfold wanted. destruct (listed k (or_default m default_matrices)), (listed k (or_default a default_attributes)); cbn [orb]; now destruct (o_attrs ob k). }
  rewrite (HC "events_table"%string), (HC "node_to_label_dict"%string). destruct W as [-> | ->]; [reflexivity|]. destruct (if wanted m a "events_table" then _ else _) as [[]|]; reflexivity.
Qed.
Lemma derived_keys t nodes b : NoDup (map fst (@derived L A t nodes b)).
Proof. cbn [derived map fst]. repeat (constructor; [cbn; intuition discriminate|]). constructor. Qed.
End Attrs.

(** * Networks *)
Section Net.
Context {L A : Type}.
Lemma names_keys (nm : naming L) t nodes b gs : NoDup (map fst gs) -> (forall k, In k (map fst gs) -> k = "times"%string \/ k = "time_grid"%string) ->
  NoDup (map fst (@names_of L A nm ++ derived t nodes b ++ gs)).
Proof.
  intros HN HG. assert (H1 : NoDup (map fst (@derived L A t nodes b ++ gs))).
  { rewrite map_app. apply NoDup_app_iff. split; [apply derived_keys|]. split; [exact HN|]. intros k Hk Hg. destruct (HG k Hg) as [-> | ->]; cbn in Hk; intuition discriminate. }
  assert (H2 : forall k, k = "label_to_node_dict"%string \/ k = "node_to_label_dict"%string -> ~ In k (map fst (@derived L A t nodes b ++ gs))).
  { intros k Hk Hin. rewrite map_app in Hin. apply in_app_or in Hin as [Hin|Hin].
    - destruct Hk as [-> | ->]; cbn in Hin; intuition discriminate.
    - destruct (HG k Hin) as [-> | ->]; destruct Hk; discriminate. }
  destruct nm as [ls|dd]; cbn [names_of app map fst].
  - constructor; [|constructor; [apply H2; now right|exact H1]]. intros [E|E]; [discriminate E|]. revert E. apply H2. now left.
  - constructor; [apply H2; now right|exact H1].
Qed.
Lemma construct_get fuel (nm : naming L) reset merge srcs tgts starts ends g (ob : object L A) : construct fuel nm reset merge srcs tgts starts ends g = Some ob ->
  exists N, make_net fuel reset merge srcs tgts starts ends = Some N /\ o_inst ob = false /\
  forall k, o_attrs ob k = aget String.eqb (names_of nm ++ derived (rows N) (nodes N) merge ++
      (if merge then [("times"%string, VTimes (times (rows N))); ("time_grid"%string, VGrid g)] else [])) k.
Proof.
  unfold construct. destruct (make_net _ _ _ _ _ _ _) as [N|]; [|discriminate]. intros H. injection H as <-. exists N. split; [reflexivity|]. split; [reflexivity|]. intros k. cbn [o_attrs]. rewrite setattrs_get.
  - now destruct (aget _ _ k).
  - apply names_keys; destruct merge; cbn [map fst]; [|constructor| |intros ? []].
    + repeat (constructor; [cbn; intuition discriminate|]). constructor.
    + intros k0 [<-|[<-|[]]]; [now left|now right].
Qed.
Lemma starts_with_durations t : map (fun r => e_start (snd r)) (with_durations t) = map (fun r => e_start (snd r)) t.
Proof. unfold with_durations. rewrite map_map. reflexivity. Qed.
Lemma ends_with_durations t : map (fun r => e_end (snd r)) (with_durations t) = map (fun r => e_end (snd r)) t.
Proof. unfold with_durations. rewrite map_map. reflexivity. Qed.
Lemma length_with_durations t : length (with_durations t) = length t.
Proof. apply map_length. Qed.
Lemma with_durations_same t : same_events t (with_durations t) /\ durations_right (with_durations t).
Proof.
  split.
  - induction t as [|r t IH]; constructor; [cbn; auto|exact IH].
  - intros r Hr. apply in_map_iff in Hr as (r0 & <- & _). reflexivity.
Qed.
Lemma with_durations_id t : durations_right t -> with_durations t = t.
Proof.
  intros H. unfold with_durations. rewrite <- (map_id t) at 2. apply map_ext_in. intros [i [s g a b d]] Hr. cbn. specialize (H _ Hr). cbn in H. now rewrite H.
Qed.
Lemma from_table_get t names k : from_table t names k = aget String.eqb (("node_to_label_dict"%string, @VLabels L A names) :: derived (with_durations t) (node_array t) false) k.
Proof.
  unfold from_table. rewrite setattrs_get; [now destruct (aget _ _ k)|]. cbn [map fst]. constructor; [cbn; intuition discriminate|apply derived_keys].
Qed.
Definition known_names : list string := ["label_to_node_dict"; "node_to_label_dict"; "node_array"; "num_nodes"; "num_events"; "start_time"; "end_time"; "events_table";
  "_compute_times"; "_overlapping_events_merged"; "is_directed"; "instantaneous_events"; "times"; "time_grid"]%string.
Lemma in_names (names : list string) k : {In k names} + {~ In k names}.
Proof. apply in_dec, string_dec. Qed.
Lemma restored fuel (nm : naming L) reset merge srcs tgts starts ends g (ob ob1 : object L A) p d N :
  construct fuel nm reset merge srcs tgts starts ends g = Some ob -> after_setting computed_names ob ob1 -> make_net fuel reset merge srcs tgts starts ends = Some N ->
  exists o', load false p None None (save ob1 p None None d) = Some (mkObj false o') /\
    (forall k, ~ In k ["label_to_node_dict"; "events_table"; "node_array"]%string -> o' k = o_attrs ob1 k) /\
    o_attrs ob1 "events_table"%string = Some (VTable (rows N)) /\ o' "events_table"%string = Some (VTable (with_durations (rows N))) /\
    o_attrs ob1 "node_array"%string = Some (VNodes (nodes N)) /\ o' "node_array"%string = Some (VNodes (node_array (rows N))).
Proof.
  intros HC (_ & HS & HK) HN. destruct (construct_get _ _ _ _ _ _ _ _ _ _ HC) as (N' & HN' & _ & HG). rewrite HN in HN'. injection HN' as <-.
  assert (E1 : o_attrs ob1 "events_table"%string = Some (VTable (rows N))). { rewrite HS by (cbn; intuition discriminate). rewrite HG. destruct nm; reflexivity. }
  assert (E2 : exists names, o_attrs ob1 "node_to_label_dict"%string = Some (VLabels names)). { rewrite HS by (cbn; intuition discriminate). rewrite HG. destruct nm; eexists; reflexivity. }
  destruct E2 as [names E2]. destruct (load_save ob1 p None None None None d (rows N) names E1 E2 eq_refl eq_refl) as (o' & HL & HO). exists o'. split; [exact HL|]. split; [|split; [exact E1|split; [rewrite HO; reflexivity|split; [rewrite HS by (cbn; intuition discriminate); rewrite HG; destruct nm; reflexivity|rewrite HO; reflexivity]]]].
  intros k Hk. rewrite HO. destruct (in_names computed_names k) as [Hc|Hc].
  - assert (HW : (negb (listed k ["events_table"; "node_to_label_dict"]%string) && wanted None None k && wanted None None k)%bool = true).
    { revert Hc. clear. intros Hc. repeat (destruct Hc as [<-|Hc]; [reflexivity|]). contradiction. }
    rewrite HW. destruct (o_attrs ob1 k) as [v|] eqn:E; [reflexivity|]. assert (HX : o_attrs ob k = None). { destruct (o_attrs ob k) eqn:EX; [|reflexivity]. exfalso. apply (HK k); congruence. }
    rewrite HG in HX. rewrite from_table_get. clear - Hc HX. repeat (destruct Hc as [<-|Hc]; [first [reflexivity | destruct nm; discriminate HX]|]). contradiction.
  - rewrite HS by exact Hc. destruct (in_names known_names k) as [Hn|Hn].
    + rewrite HS in E2 by (cbn; intuition discriminate). rewrite from_table_get, HG. rewrite HG in E2. clear - Hc Hk Hn E2. unfold known_names in Hn.
      repeat (destruct Hn as [<-|Hn]; [first [exfalso; apply Hk; cbn; tauto | exfalso; apply Hc; cbn; tauto |
        destruct nm; cbn in E2 |- *; rewrite ?length_with_durations, ?starts_with_durations, ?ends_with_durations; congruence]|]). contradiction.
    + assert (F1 : o_attrs ob k = None). { rewrite HG. apply aget_none. intros Hin. apply Hn. rewrite !map_app in Hin. apply in_app_or in Hin as [Hin|Hin]; [destruct nm; cbn in Hin |- *; tauto|]. apply in_app_or in Hin as [Hin|Hin]; [cbn in Hin |- *; tauto|]. destruct merge; cbn in Hin |- *; tauto. }
      assert (F2 : from_table (rows N) names k = (None : option (val L A))). { rewrite from_table_get. apply aget_none. intros Hin. apply Hn. cbn in Hin |- *. tauto. }
      rewrite F1, F2. now destruct (_ && _)%bool.
Qed.
End Net.

(** * Matrices *)
Lemma qmul_le_l t a : (0 <= t)%num -> (a <= 1)%num -> (t * a <= t)%num.
Proof. intros Ht Ha. assert (H : (0 <= t * (1 - a))%num) by (apply qmult_nonneg; [exact Ht|qlra]). replace (t * (1 - a))%num with (t - t * a)%num in H by ring. revert H. generalize (t * a)%num. intros x. qlra. Qed.
Lemma zeroes_kept n M tol : csr_ok n M -> no_repetition M -> (forall v, In v (c_data M) -> (0 <= v)%num /\ (v <= 1)%num) -> (0 <= tol)%num ->
  csr_ok n (set_to_zeroes M tol true false) /\ kept_or_small n tol (value M) (value (set_to_zeroes M tol true false)).
Proof.
  intros HM HR HV Ht. set (m := qmax (qabs (list_min (c_data M))) (qabs (list_max (c_data M)))).
  assert (HL : c_data M <> [] -> largest M m) by (apply largest_code).
  destruct (set_to_zeroes_spec n M tol true false m HM HR Ht (or_intror (fun v H => proj1 (HV v H))) HL) as [H1 H2]. split; [exact H1|]. intros i j Hi Hj. rewrite H2 by assumption.
  destruct (qleb_spec (qabs (value M i j)) (tol * m)%num) as [Hle|]; [right|now left]. split; [reflexivity|].
  destruct (c_data M) as [|v l] eqn:E.
  - assert (E0 : value M i j = 0%num). { unfold value, row_entries. assert (EP : row_range (c_ptr M) i = []). { destruct HM as (HM1 & HM2 & HM3 & HM4 & _). rewrite E in HM4. cbn in HM4. unfold row_range. assert (HB : forall k, k <= n -> nth k (c_ptr M) 0 = 0). { intros k Hk. assert (HX : forall q, q <= n - k -> nth (n - q) (c_ptr M) 0 = 0). { induction q as [|q IHq]; intros Hq; [now rewrite Nat.sub_0_r|]. specialize (IHq ltac:(lia)). specialize (HM3 (n - S q) ltac:(lia)). replace (S (n - S q)) with (n - q) in HM3 by lia. lia. } specialize (HX (n - k) ltac:(lia)). replace (n - (n - k)) with k in HX by lia. exact HX. } rewrite (HB (S i)), (HB i) by lia. reflexivity. } rewrite EP. reflexivity. }
    rewrite E0. unfold qabs. destruct (qltb_spec 0%num 0%num) as [H|_]; [exfalso; qlra|exact Ht].
  - destruct (HL ltac:(discriminate)) as (_ & w & Hw & Ew). rewrite E in Hw. destruct (HV w Hw) as [Hw0 Hw1]. apply Qcle_trans with (tol * m)%num; [exact Hle|]. rewrite <- Ew. apply qmul_le_l; [exact Ht|].
    unfold qabs. destruct (qltb_spec w 0%num); qlra.
Qed.
Lemma ssm_init_id B : ssm_ok B -> ssm_init (s_size B) (s_small B) (s_nz B) (s_diag B) = Some B.
Proof. intros (H1 & H2 & _). unfold ssm_init. rewrite (proj1 H1), Nat.eqb_refl, (unique_id _ H2). now destruct B. Qed.
Lemma ssm_rounded_spec B tol : ssm_ok B -> no_repetition (s_small B) -> (forall v, In v (c_data (s_small B)) -> (0 <= v)%num /\ (v <= 1)%num) -> (0 <= tol)%num ->
  exists B', ssm_rounded tol B = Some B' /\ ssm_ok B' /\ s_size B' = s_size B /\ kept_or_small (s_size B) tol (full B) (full B').
Proof.
  intros HB HR HV Ht. unfold ssm_rounded. rewrite (ssm_init_id B HB). eexists. split; [reflexivity|]. destruct HB as (H1 & H2 & H3). destruct (zeroes_kept _ _ tol H1 HR HV Ht) as [K1 K2].
  assert (HB' : ssm_ok (mkS (s_size B) (s_nz B) (set_to_zeroes (s_small B) tol true false) (s_diag B))) by (split; [exact K1|split; assumption]).
  split; [exact HB'|]. split; [reflexivity|]. intros i j Hi Hj. rewrite (full_rep _ i j HB' Hi Hj), (full_rep B i j (conj H1 (conj H2 H3)) Hi Hj). unfold rep. cbn [s_nz s_small s_diag].
  destruct (pos i (s_nz B)) as [a|] eqn:Ea; [|now left]. destruct (pos j (s_nz B)) as [b|] eqn:Eb; [|now left]. apply K2; eapply pos_lt; eassumption.
Qed.
Lemma kept_refl n tol f : kept_or_small n tol f f.
Proof. intros i j _ _. now left. Qed.
Lemma pack_unpack n round tol m : good_mat n m -> (0 <= tol)%num ->
  exists s m', pack round tol m = Some s /\ unpack (is_sparse m) s = Some m' /\ same_kind m m' /\ kept_or_small n tol (entries_of m) (entries_of m') /\ (round = false -> m' = m).
Proof.
  intros HG Ht. destruct m as [M|B|]; [| |contradiction].
  - destruct HG as (H1 & H2 & H3). eexists. eexists. split; [reflexivity|]. split; [reflexivity|]. split; [exact I|]. split; [|now intros ->]. destruct round; [apply zeroes_kept; assumption|apply kept_refl].
  - destruct HG as (H1 & <- & H2 & H3). destruct round; cbn [pack is_sparse].
    + destruct (ssm_rounded_spec B tol H1 H2 H3 Ht) as (B' & E & K1 & K2 & K3). rewrite E. eexists. eexists. split; [reflexivity|]. cbn [unpack ssm_to_dict d_size d_csr d_nz d_diag]. rewrite (ssm_init_id _ K1). split; [reflexivity|]. split; [exact I|]. split; [exact K3|discriminate].
    + eexists. eexists. split; [reflexivity|]. cbn [unpack ssm_to_dict d_size d_csr d_nz d_diag]. rewrite (ssm_init_id _ H1). split; [reflexivity|]. split; [exact I|]. split; [apply kept_refl|reflexivity].
Qed.
Lemma all_some_Forall2 {X Y} (f : X -> option Y) l r : all_some (map f l) = Some r <-> Forall2 (fun x y => f x = Some y) l r.
Proof.
  revert r. induction l as [|x l IH]; intros r; cbn [map all_some].
  - split; [intros [= <-]; constructor|intros H; inversion H; reflexivity].
  - split.
    + destruct (f x) as [y|] eqn:E; [|discriminate]. destruct (all_some (map f l)) as [s|] eqn:ES; [|discriminate]. intros [= <-]. constructor; [exact E|]. now apply IH.
    + intros H. inversion H as [|? y ? s E HF]; subst. rewrite E. apply IH in HF. now rewrite HF.
Qed.
(** entries of two dictionaries with the same keys in the same order *)
Lemma aget_pairs {K V W} (eqb : K -> K -> bool) (l : list (K * V)) (l' : list (K * W)) (R : V -> W -> Prop) k v :
  Forall2 (fun a b => fst a = fst b /\ R (snd a) (snd b)) l l' -> aget eqb l k = Some v -> exists w, aget eqb l' k = Some w /\ R v w.
Proof.
  intros HF. induction HF as [|[a x] [b y] l l' [H1 H2] HF IH]; cbn [aget]; [discriminate|]. cbn in H1, H2. subst b. destruct (eqb k a); [|exact IH]. intros [= <-]. now exists y.
Qed.
Section Files.
Context {P : Type}.
Lemma pack_all_load {K} (eqb : K -> K -> bool) n (ps : P) round tol (l : list (K * tmat)) sp : l <> [] -> (forall k m, In (k, m) l -> good_mat n m /\ is_sparse m = sp) -> (0 <= tol)%num ->
  exists f T', pack_all (Some ps) round tol l = Some f /\ tf_params f = ps /\
    all_some (map (fun ks => option_map (pair (fst ks)) (unpack (tf_sparse f) (snd ks))) (tf_T f)) = Some T' /\
    Forall2 (fun a b => fst a = fst b /\ (same_kind (snd a) (snd b) /\ kept_or_small n tol (entries_of (snd a)) (entries_of (snd b)) /\ (round = false -> snd b = snd a))) l T'.
Proof.
  intros Hne HG Ht.
  assert (HS : existsb (fun km => is_sparse (snd km)) l = sp).
  { destruct l as [|[k m] l]; [congruence|]. destruct sp.
    - apply existsb_exists. exists (k, m). split; [now left|]. apply (HG k m). now left.
    - apply not_true_iff_false. intros H. apply existsb_exists in H as ([k' m'] & Hin & Hs). destruct (HG k' m' Hin) as [_ E]. cbn in Hs. congruence. }
  assert (HX : exists r T', Forall2 (fun km ks => option_map (pair (fst km)) (pack round tol (snd km)) = Some ks) l r /\
     Forall2 (fun ks b => option_map (pair (fst ks)) (unpack sp (snd ks)) = Some b) r T' /\
     Forall2 (fun a b => fst a = fst b /\ (same_kind (snd a) (snd b) /\ kept_or_small n tol (entries_of (snd a)) (entries_of (snd b)) /\ (round = false -> snd b = snd a))) l T').
  { clear Hne HS. induction l as [|[k m] l IH]; [exists [], []; repeat constructor|]. destruct IH as (r & T' & F1 & F2 & F3); [intros k' m' Hin; apply (HG k' m'); now right|].
    destruct (HG k m (or_introl eq_refl)) as [HGm HSm]. destruct (pack_unpack n round tol m HGm Ht) as (s & m' & E1 & E2 & E3 & E4 & E5). rewrite HSm in E2. exists ((k, s) :: r), ((k, m') :: T').
    split; [|split]; constructor; try assumption; cbn [fst snd]; [now rewrite E1|now rewrite E2|]. auto. }
  destruct HX as (r & T' & F1 & F2 & F3). destruct l as [|km l]; [congruence|]. unfold pack_all. apply all_some_Forall2 in F1. rewrite F1, HS. eexists. exists T'. split; [reflexivity|]. split; [reflexivity|]. cbn [tf_sparse tf_T]. split; [now apply all_some_Forall2|exact F3].
Qed.
End Files.
