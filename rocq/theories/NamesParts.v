(** Proofs about the names of files: their parts, and the directories they make up. *)
From Coq Require Import Ascii String.
From Verif Require Import Base LouvainModel SparseModel EventsModel TransModel FileModel FileSpec FileProofs NamesModel NamesSpec NamesProofs.
Local Open Scope list_scope.

(** * Parts *)
Lemma split_us_app a b : split_us (a ++ "_"%char :: b) = split_us a ++ split_us b.
Proof.
  induction a as [|c a IH]; cbn [app split_us]; [reflexivity|]. destruct (Ascii.eqb c "_"); [cbn [app]; now rewrite IH|]. rewrite IH.
  destruct (split_us a) as [|h t] eqn:E; [|reflexivity]. exfalso. clear - E. destruct a as [|c a]; [discriminate|]. cbn [split_us] in E. destruct (Ascii.eqb c "_"); [discriminate|]. destruct (split_us a); discriminate.
Qed.
Lemma split_us_single p : ~ In "_"%char p -> split_us p = [p].
Proof.
  induction p as [|c p IH]; intros H; [reflexivity|]. cbn [split_us]. destruct (Ascii.eqb_spec c "_") as [->|_]; [exfalso; apply H; now left|].
  rewrite IH; [reflexivity|]. intros X. apply H. now right.
Qed.
Lemma split_us_first p : exists h t, split_us p = h :: t /\ ~ In "_"%char h /\ (p = h \/ exists r, p = h ++ "_"%char :: r /\ t = split_us r).
Proof.
  induction p as [|c p (h & t & E & Hh & Hp)]; [exists [], []; split; [reflexivity|split; [intros []|now left]]|]. cbn [split_us].
  destruct (Ascii.eqb_spec c "_") as [->|N].
  - exists [], (split_us p). split; [reflexivity|]. split; [intros []|]. right. exists p. split; reflexivity.
  - rewrite E. exists (c :: h), t. split; [reflexivity|]. split; [intros [X|X]; [now apply N|contradiction]|].
    destruct Hp as [->|(r & -> & ->)]; [now left|right]. now exists r.
Qed.
Lemma split_us_part p : forall s, In s (split_us p) -> is_part p s.
Proof.
  remember (length p) as k eqn:Ek. revert p Ek. induction k as [k IH] using lt_wf_ind. intros p Ek s Hs.
  destruct (split_us_first p) as (h & t & E & Hh & Hp). rewrite E in Hs. destruct Hp as [->|(r & -> & ->)].
  - rewrite (split_us_single h Hh) in E. injection E as <-. destruct Hs as [<-|[]]. exists [], []. split; [now rewrite app_nil_r|]. split; [exact Hh|]. split; now left.
  - destruct Hs as [<-|Hs].
    + exists [], ("_"%char :: r). split; [reflexivity|]. split; [exact Hh|]. split; [now left|right]. now exists r.
    + destruct (IH (length r)) with (p := r) (s := s) as (a & b & -> & H1 & H2 & H3); [rewrite Ek, app_length; cbn [length]; lia|reflexivity|exact Hs|].
      exists (h ++ "_"%char :: a), b. split; [now rewrite <- app_assoc|]. split; [exact H1|]. split; [|exact H3]. right.
      destruct H2 as [->|(a' & ->)]; [now exists h|]. exists (h ++ "_"%char :: a'). now rewrite <- app_assoc.
Qed.
(** the part before an underscore *)
Lemma until_us a b r r' : ~ In "_"%char a -> ~ In "_"%char b -> a ++ "_"%char :: r = b ++ "_"%char :: r' -> a = b /\ r = r'.
Proof.
  revert b. induction a as [|x a IH]; intros [|y b] Ha Hb E; cbn [app] in E.
  - now injection E.
  - exfalso. injection E as E _. apply Hb. now left.
  - exfalso. injection E as E _. apply Ha. now left.
  - injection E as -> E. destruct (IH b) as [-> ->]; [intros X; apply Ha; now right|intros X; apply Hb; now right|exact E|]. now split.
Qed.
Lemma firstn_prefix {X} (s p : list X) : firstn (length s) (s ++ p) = s.
Proof. now rewrite firstn_app, Nat.sub_diag, firstn_all, firstn_O, app_nil_r. Qed.
Lemma prefixb_spec s p : prefixb s p = true <-> starts_with s p.
Proof.
  unfold prefixb. destruct (path_eqb_spec (firstn (length s) p) s) as [E|E]; split; intros H; try reflexivity; try discriminate.
  - exists (skipn (length s) p). rewrite <- E at 1. symmetry. apply firstn_skipn.
  - destruct H as (b & ->). exfalso. apply E. apply firstn_prefix.
Qed.
Lemma prefixb_app s p : prefixb s (s ++ p) = true.
Proof. apply prefixb_spec. now exists p. Qed.
Lemma containsb_spec s p : containsb s p = true <-> contains s p.
Proof.
  induction p as [|c p IH].
  - cbn [containsb]. rewrite Bool.orb_false_r, prefixb_spec. split; [intros (b & E); exists [], b; exact E|].
    intros (a & b & E). symmetry in E. apply app_eq_nil in E. destruct E as [_ E]. exists b. now symmetry.
  - cbn [containsb]. rewrite Bool.orb_true_iff, prefixb_spec, IH. split.
    + intros [(b & E)|(a & b & E)]; [exists [], b; exact E|exists (c :: a), b; now rewrite E].
    + intros ([|x a] & b & E); [left; now exists b|right]. injection E as _ E. now exists a, b.
Qed.
Lemma is_digit_in c : is_digit c = true <-> In c (str "0123456789").
Proof.
  split.
  - intros H. unfold is_digit, digit_value in H. destruct ((48 <=? nat_of_ascii c) && (nat_of_ascii c <=? 57))%bool eqn:E; [|discriminate].
    apply Bool.andb_true_iff in E. destruct E as [E1 E2]. apply Nat.leb_le in E1, E2. rewrite <- (ascii_nat_embedding c). set (k := nat_of_ascii c) in *. clearbody k.
    do 48 (destruct k as [|k]; [lia|]). do 10 (destruct k as [|k]; [cbn; tauto|]). lia.
  - cbn. intros H. repeat (destruct H as [<-|H]; [reflexivity|]). destruct H.
Qed.
Lemma int6_here_spec p : int6_here p = true <-> exists ds, length ds = 6 /\ (forall c, In c ds -> In c (str "0123456789")) /\ starts_with (str "int" ++ ds) p.
Proof.
  unfold int6_here. rewrite !Bool.andb_true_iff, prefixb_spec, Nat.leb_le, forallb_forall. split.
  - intros [[(b & ->) L] D]. change (skipn 3 (str "int" ++ b)) with b in *. exists (firstn 6 b). split; [rewrite firstn_length; lia|]. split; [intros c Hc; now apply is_digit_in, D|].
    exists (skipn 6 b). rewrite <- app_assoc. f_equal. symmetry. apply firstn_skipn.
  - intros (ds & L & D & (b & ->)). rewrite <- app_assoc. change (skipn 3 (str "int" ++ ds ++ b)) with (ds ++ b). replace (firstn 6 (ds ++ b)) with ds by (rewrite <- L; symmetry; apply firstn_prefix).
    split; [split; [now exists (ds ++ b)|rewrite app_length; lia]|]. intros c Hc. now apply is_digit_in, D.
Qed.
Lemma has_int6_spec p : has_int6 p = true <-> like_interval p.
Proof.
  induction p as [|c p IH].
  - split; [discriminate|]. intros (ds & L & _ & (a & b & E)). exfalso. symmetry in E. apply app_eq_nil in E. destruct E as [_ E]. discriminate.
  - cbn [has_int6]. rewrite Bool.orb_true_iff, IH, int6_here_spec. split.
    + intros [(ds & L & D & (b & E))|(ds & L & D & (a & b & E))]; exists ds; (split; [exact L|]); (split; [exact D|]); [exists [], b; exact E|exists (c :: a), b; now rewrite E].
    + intros (ds & L & D & ([|x a] & b & E)); [left|right]; exists ds; (split; [exact L|]); (split; [exact D|]); [now exists b|]. injection E as _ E. now exists a, b.
Qed.
Lemma has_int6_no_i p : ~ In "i"%char p -> has_int6 p = false.
Proof.
  intros H. destruct (has_int6 p) eqn:E; [|reflexivity]. exfalso. apply has_int6_spec in E. destruct E as (ds & _ & _ & (a & b & ->)). apply H. apply in_app_iff. right. apply in_app_iff. left. now left.
Qed.
(** no underscore, slash or letter but e in numbers *)
Lemma number_no c p : (forall x, In x p -> number_char x) -> ~ number_char c -> ~ In c p.
Proof. intros H Hc X. now apply Hc, H. Qed.
Lemma fmt_no x c : (0 < x)%num -> ~ number_char c -> ~ In c (fmt_e3 x).
Proof. intros Hx. apply number_no. now apply fmt_chars. Qed.
Lemma padded_no w k c : is_digit c = false -> ~ In c (padded w k).
Proof. apply digits_no, padded_digits. Qed.
Ltac not_number := intros [?|[?|[?|[?|?]]]]; discriminate.

(** * The names *)
Definition tail (t : task) : path :=
  (match k_kind t with Over true => str "_reversed" | _ => [] end) ++ (if k_lin t then str "_lin" else [])
  ++ (match k_kind t with Between => str "_inter_trans_mat" | Over _ => str "_trans_mat" end).
Definition suffix (b : bool) (t : task) : path := match k_kind t with Between => if b then str ".gz" else str ".pickle" | Over _ => if b then str ".pickle.gz" else str ".pickle" end.
Lemma stem_tail net t : file_stem net t = net ++ str "_tau_w" ++ fmt_e3 (k_tau t) ++ str "_int" ++ padded 6 (k_int t) ++ str "_" ++ tail t.
Proof. reflexivity. Qed.
Lemma lookup_stem net t : lookup_name net t = file_stem net t.
Proof. unfold lookup_name. rewrite stem_tail. unfold tail. destruct t as [tau k [|] [|[|]]]; reflexivity. Qed.
Lemma tail_end t : exists u, tail t = u ++ ["t"%char].
Proof. exists (removelast (tail t)). destruct t as [tau k [|] [|[|]]]; reflexivity. Qed.
Lemma stem_end net t : exists u, file_stem net t = u ++ ["t"%char].
Proof.
  destruct (tail_end t) as (u & E). rewrite stem_tail, E. eexists. rewrite !app_assoc. reflexivity.
Qed.
Lemma stem_ext net t s c e : with_extension (file_stem net t) s (e ++ [c]) -> c = "t"%char.
Proof.
  intros [E _]. destruct (stem_end net t) as (u & E'). rewrite E', app_assoc in E. now apply app_inj_tail in E.
Qed.
Lemma stem_not_gz net t : path_eqb (snd (splitext (file_stem net t))) (str ".gz") = false.
Proof. destruct (path_eqb _ _) eqn:E; [|reflexivity]. apply ext_gz in E. destruct E as (s & E). apply (stem_ext net t s "z" (str ".g")) in E. discriminate. Qed.
Lemma stem_not_pickle net t : path_eqb (snd (splitext (file_stem net t))) (str ".pickle") = false.
Proof. destruct (path_eqb _ _) eqn:E; [|reflexivity]. apply ext_pickle in E. destruct E as (s & E). apply (stem_ext net t s "e" (str ".pickl")) in E. discriminate. Qed.
Lemma with_ext s e : ~ In "/"%char s -> (exists c, In c s /\ c <> "."%char) -> ~ In "."%char e -> ~ In "/"%char e -> with_extension (s ++ "."%char :: e) s ("."%char :: e).
Proof.
  intros H1 H2 H3 H4. split; [reflexivity|]. exists e, [], s. split; [reflexivity|]. split; [exact H3|]. split; [exact H4|]. split; [|exact H2].
  split; [reflexivity|]. split; [exact H1|now left].
Qed.
Lemma in_str c s : In c (str s) <-> In c (list_ascii_of_string s). Proof. reflexivity. Qed.
Lemma not_in_app {X} (c : X) a b : ~ In c (a ++ b) <-> ~ In c a /\ ~ In c b.
Proof. rewrite in_app_iff. tauto. Qed.
Lemma stem_no_slash net t : (0 < k_tau t)%num -> ~ In "/"%char net -> ~ In "/"%char (file_stem net t).
Proof.
  intros Hx Hn. rewrite stem_tail. rewrite !not_in_app. repeat split; try assumption.
  - cbn. intros H. repeat (destruct H as [H|H]; [discriminate|]). destruct H.
  - apply fmt_no; [exact Hx|not_number].
  - cbn. intros H. repeat (destruct H as [H|H]; [discriminate|]). destruct H.
  - now apply padded_no.
  - cbn. intros H. repeat (destruct H as [H|H]; [discriminate|]). destruct H.
  - destruct t as [tau k [|] [|[|]]]; cbn; intros H; repeat (destruct H as [H|H]; [discriminate|]); destruct H.
Qed.
Lemma stem_not_dots net t : exists c, In c (file_stem net t) /\ c <> "."%char.
Proof. destruct (stem_end net t) as (u & ->). exists "t"%char. split; [apply in_app_iff; right; now left|discriminate]. Qed.
Lemma written_stem b net t : (0 < k_tau t)%num -> ~ In "/"%char net -> written_name b (given_name net t) = file_stem net t ++ suffix b t.
Proof.
  intros Hx Hn. assert (Hs := stem_no_slash net t Hx Hn). assert (Hd := stem_not_dots net t).
  unfold given_name, suffix, written_name. destruct (k_kind t) as [|r].
  - rewrite app_nil_r, stem_not_gz, stem_not_pickle. destruct b; reflexivity.
  - assert (E : splitext (file_stem net t ++ str ".pickle") = (file_stem net t, str ".pickle")).
    { apply splitext_with. apply (with_ext (file_stem net t) (str "pickle")); try assumption; cbn; intros X; repeat (destruct X as [X|X]; [discriminate|]); destruct X. }
    rewrite E. cbn [snd]. destruct b; [|reflexivity]. change (path_eqb (str ".pickle") (str ".gz")) with false. cbv iota. rewrite <- app_assoc. reflexivity.
Qed.
(** a stem that begins the name of a file is its stem *)
Lemma tails_differ t t' s b : tail t ++ s = tail t' ++ suffix b t' -> k_lin t = k_lin t' /\ k_kind t = k_kind t'.
Proof.
  destruct t as [tau k [|] [|[|]]], t' as [tau' k' [|] [|[|]]]; cbv [tail k_kind k_lin suffix]; intros H; try (split; reflexivity); exfalso; destruct b; cbn in H; discriminate H.
Qed.
Lemma stem_prefix net t t' b : four_digits (k_tau t) -> four_digits (k_tau t') -> starts_with (file_stem net t) (file_stem net t' ++ suffix b t') -> t = t'.
Proof.
  intros H H' (s & E). assert (P := four_digits_pos _ H). assert (P' := four_digits_pos _ H'). rewrite !stem_tail, <- !app_assoc in E. apply app_inv_head in E. apply app_inv_head in E.
  change (str "_int") with ("_"%char :: str "int") in E. cbn [app] in E.
  apply until_us in E; [|apply fmt_no; [exact P'|not_number]|apply fmt_no; [exact P|not_number]]. destruct E as [Ef E].
  apply (fmt_inj _ _ H' H) in Ef. apply app_inv_head in E. change (str "_") with ("_"%char :: []) in E. cbn [app] in E.
  apply until_us in E; try (apply padded_no; reflexivity). destruct E as [Ek E]. apply padded_inj in Ek. symmetry in E. apply tails_differ in E. destruct E as [E1 E2].
  destruct t, t'. cbn in *. subst. reflexivity.
Qed.
Lemma stem_not_adj net t k : ~ starts_with (file_stem net t) (adj_name net k).
Proof. intros (s & E). unfold adj_name in E. rewrite stem_tail, <- app_assoc in E. apply app_inv_head in E. discriminate E. Qed.

(** * The directory after the first step *)
Section Step1.
Context {A : Type} (compress : task -> bool) (compute : task -> A) (adj : nat -> A) (net : path).
Local Notation dir := (dir A).
Definition entry (t : task) : path * (format * content A) := (file_stem net t ++ suffix (compress t) t, (format_of (compress t), CMat (1 / k_tau t)%num (compute t))).
Definition adj_entry (k : nat) : path * (format * content A) := (adj_name net k, (Plain, CAdj (adj k))).
(** the files are those of the calls so far *)
Definition dir_ok (calls : list save_call) (d : dir) : Prop :=
  (forall f, In f d -> (exists t, In (SaveTask t) calls /\ f = entry t) \/ (exists k, In (SaveAdj k) calls /\ f = adj_entry k))
  /\ (forall t, In (SaveTask t) calls -> In (entry t) d) /\ (forall k, In (SaveAdj k) calls -> In (adj_entry k) d).
Hypothesis Hnet : ~ In "/"%char net.
Lemma globbed_spec (d : dir) p : globbed d p = true <-> exists f, In f d /\ starts_with p (fst f).
Proof using. unfold globbed. rewrite existsb_exists. split; intros (f & H & E); exists f; (split; [exact H|]); now apply prefixb_spec. Qed.
Lemma adj_name_inj k k' : adj_name net k = adj_name net k' -> k = k'.
Proof using.
  unfold adj_name. intros E. apply app_inv_head in E. apply app_inv_head in E. apply app_inv_head in E. apply app_inv_tail in E. now apply padded_inj in E.
Qed.
Lemma adj_not_stem t k b : adj_name net k <> file_stem net t ++ suffix b t.
Proof using. intros E. apply (stem_not_adj net t k). now exists (suffix b t). Qed.
Lemma step1_ok calls : (forall t, In (SaveTask t) calls -> four_digits (k_tau t)) -> dir_ok calls (run_step1 compress compute adj net calls []).
Proof using Hnet.
  induction calls as [|c calls IH] using rev_ind; intros H4.
  - split; [intros f []|split; intros x []].
  - assert (Es : forall d, run_step1 compress compute adj net (calls ++ [c]) d = match c with SaveTask t => save_task compress compute net (run_step1 compress compute adj net calls d) t | SaveAdj k => save_adj adj net (run_step1 compress compute adj net calls d) k end).
    { intros d. unfold run_step1. now rewrite fold_left_app. }
    rewrite Es. destruct IH as (I1 & I2 & I3); [intros t Ht; apply H4, in_app_iff; now left|].
    set (d := run_step1 compress compute adj net calls []) in *. clearbody d. destruct c as [t|k].
    + assert (Ht : four_digits (k_tau t)) by (apply H4, in_app_iff; right; now left).
      unfold save_task. destruct (globbed d (file_stem net t)) eqn:G.
      * apply globbed_spec in G. destruct G as (f & Hf & Hp).
        assert (Hin : In (SaveTask t) calls).
        { destruct (I1 f Hf) as [(t' & Ht' & ->)|(k & _ & ->)].
          - cbn [entry fst] in Hp. apply stem_prefix in Hp; [now subst|exact Ht|]. apply H4, in_app_iff. now left.
          - exfalso. now apply stem_not_adj in Hp. }
        split; [|split].
        -- intros g Hg. destruct (I1 g Hg) as [(x & Hx & ->)|(x & Hx & ->)]; [left|right]; exists x; (split; [apply in_app_iff; now left|reflexivity]).
        -- intros x Hx. apply in_app_iff in Hx. destruct Hx as [Hx|[Hx|[]]]; [now apply I2|]. injection Hx as <-. now apply I2.
        -- intros x Hx. apply in_app_iff in Hx. destruct Hx as [Hx|[Hx|[]]]; [now apply I3|discriminate].
      * rewrite written_stem; [|now apply four_digits_pos|exact Hnet]. split; [|split].
        -- intros g [<-|Hg]; [left; exists t; split; [apply in_app_iff; right; now left|reflexivity]|].
           destruct (I1 g Hg) as [(x & Hx & ->)|(x & Hx & ->)]; [left|right]; exists x; (split; [apply in_app_iff; now left|reflexivity]).
        -- intros x Hx. apply in_app_iff in Hx. destruct Hx as [Hx|[Hx|[]]]; [right; now apply I2|]. injection Hx as <-. now left.
        -- intros x Hx. apply in_app_iff in Hx. destruct Hx as [Hx|[Hx|[]]]; [right; now apply I3|discriminate].
    + unfold save_adj. destruct (existsb _ d) eqn:G.
      * apply existsb_exists in G. destruct G as (f & Hf & Hp). destruct (path_eqb_spec (adj_name net k) (fst f)) as [E|]; [|discriminate].
        assert (Hin : In (SaveAdj k) calls).
        { destruct (I1 f Hf) as [(t' & Ht' & ->)|(k' & Hk & ->)].
          - exfalso. now apply adj_not_stem in E.
          - cbn [adj_entry fst] in E. apply adj_name_inj in E. now subst. }
        split; [|split].
        -- intros g Hg. destruct (I1 g Hg) as [(x & Hx & ->)|(x & Hx & ->)]; [left|right]; exists x; (split; [apply in_app_iff; now left|reflexivity]).
        -- intros x Hx. apply in_app_iff in Hx. destruct Hx as [Hx|[Hx|[]]]; [now apply I2|discriminate].
        -- intros x Hx. apply in_app_iff in Hx. destruct Hx as [Hx|[Hx|[]]]; [now apply I3|]. injection Hx as <-. now apply I3.
      * split; [|split].
        -- intros g [<-|Hg]; [right; exists k; split; [apply in_app_iff; right; now left|reflexivity]|].
           destruct (I1 g Hg) as [(x & Hx & ->)|(x & Hx & ->)]; [left|right]; exists x; (split; [apply in_app_iff; now left|reflexivity]).
        -- intros x Hx. apply in_app_iff in Hx. destruct Hx as [Hx|[Hx|[]]]; [right; now apply I2|discriminate].
        -- intros x Hx. apply in_app_iff in Hx. destruct Hx as [Hx|[Hx|[]]]; [right; now apply I3|]. injection Hx as <-. now left.
Qed.
(** reading *)
Lemma disk_none (d : dir) p : (forall f, In f d -> fst f <> p) -> disk_of d p = None.
Proof using.
  intros H. unfold disk_of. destruct (find _ d) as [f|] eqn:E; [|reflexivity]. apply find_some in E. destruct E as [Hf E]. destruct (path_eqb_spec p (fst f)) as [E'|]; [|discriminate]. exfalso. now apply (H f Hf).
Qed.
Lemma disk_some (d : dir) f : In f d -> (forall g, In g d -> fst g = fst f -> g = f) -> disk_of d (fst f) = Some (snd f).
Proof using.
  intros Hf H. unfold disk_of. destruct (find _ d) as [g|] eqn:E.
  - apply find_some in E. destruct E as [Hg E]. destruct (path_eqb_spec (fst f) (fst g)) as [E'|]; [|discriminate]. rewrite (H g Hg (eq_sym E')). reflexivity.
  - exfalso. assert (X := find_none _ _ E f Hf). cbn beta in X. destruct (path_eqb_spec (fst f) (fst f)) as [|N]; [discriminate|now apply N].
Qed.
Lemma same_prefix calls (d : dir) t s f : (forall t, In (SaveTask t) calls -> four_digits (k_tau t)) -> dir_ok calls d -> four_digits (k_tau t) -> In f d -> fst f = file_stem net t ++ s -> f = entry t.
Proof using.
  intros H4 (I1 & _ & _) Ht Hf E. destruct (I1 f Hf) as [(t' & Ht' & ->)|(k & _ & ->)].
  - cbn [entry fst] in E. replace t' with t; [reflexivity|]. apply (stem_prefix net t t' (compress t')); [exact Ht|now apply H4|now exists s].
  - exfalso. cbn [adj_entry fst] in E. apply (stem_not_adj net t k). now exists s.
Qed.
Lemma load_saved calls (d : dir) t : (forall t, In (SaveTask t) calls -> four_digits (k_tau t)) -> dir_ok calls d -> In (SaveTask t) calls -> load_task d net t = Some (compute t).
Proof using.
  intros H4 Hd Ht. assert (H4t := H4 t Ht). assert (Hin : In (entry t) d) by now apply Hd.
  assert (Hs : disk_of d (file_stem net t ++ suffix (compress t) t) = Some (snd (entry t))).
  { apply (disk_some d (entry t) Hin). intros g Hg E. now apply (same_prefix calls d t (suffix (compress t) t) g). }
  assert (Hn : forall s, s <> suffix (compress t) t -> disk_of d (file_stem net t ++ s) = None).
  { intros s Hs'. apply disk_none. intros f Hf E. assert (X := same_prefix calls d t s f H4 Hd H4t Hf E). subst f. cbn [entry fst] in E. apply app_inv_head in E. now apply Hs'. }
  unfold load_task. rewrite lookup_stem. unfold read_any. rewrite stem_not_gz, stem_not_pickle.
  assert (Q : qeqb (1 / k_tau t)%num (1 / k_tau t)%num = true) by (destruct (qeqb_spec (1 / k_tau t)%num (1 / k_tau t)%num) as [|N]; [reflexivity|exfalso; now apply N]).
  unfold exists_file, read.
  destruct (path_eqb_spec (str ".pickle") (suffix (compress t) t)) as [E1|E1].
  - rewrite E1, Hs. cbn [entry snd]. unfold suffix in E1. destruct (k_kind t), (compress t); try discriminate E1; cbn [format_of]; now rewrite Q.
  - rewrite (Hn _ E1). destruct (path_eqb_spec (str ".gz") (suffix (compress t) t)) as [E2|E2].
    + rewrite E2, Hs. cbn [entry snd]. unfold suffix in E2. destruct (k_kind t), (compress t); try discriminate E2; cbn [format_of]; now rewrite Q.
    + rewrite (Hn _ E2). destruct (path_eqb_spec (str ".pickle.gz") (suffix (compress t) t)) as [E3|E3].
      * rewrite E3, Hs. cbn [entry snd]. unfold suffix in E3. destruct (k_kind t), (compress t); try discriminate E3; cbn [format_of]; now rewrite Q.
      * exfalso. unfold suffix in *. destruct (k_kind t), (compress t); (now apply E1) || (now apply E2) || (now apply E3).
Qed.

(** * Reading the directory *)
Definition plain (l : list found) : Prop := forall f, In f l -> f = FNothing.
Lemma all_some_app {X} (l l' : list (option X)) : all_some (l ++ l') = match all_some l, all_some l' with Some a, Some b => Some (a ++ b) | _, _ => None end.
Proof using.
  induction l as [|[x|] l IH]; cbn [app all_some].
  - now destruct (all_some l').
  - rewrite IH. destruct (all_some l), (all_some l'); reflexivity.
  - reflexivity.
Qed.
Lemma quiet_parts : quiet net -> exists l, all_some (map read_part (split_us net)) = Some l /\ plain l.
Proof using.
  intros [_ Hq]. assert (H : forall s, In s (split_us net) -> read_part s = Some FNothing).
  { intros s Hs. apply split_us_part in Hs. destruct (Hq s Hs) as [H1 H2]. unfold read_part.
    destruct (has_int6 s) eqn:E1; [exfalso; now apply H2, has_int6_spec|]. destruct (prefixb (str "w") s) eqn:E2; [exfalso; now apply H1, prefixb_spec|]. reflexivity. }
  induction (split_us net) as [|s l IH]; [exists []; split; [reflexivity|intros f []]|]. destruct IH as (r & E & Hr); [intros x Hx; apply H; now right|].
  cbn [map all_some]. rewrite (H s (or_introl eq_refl)), E. exists (FNothing :: r). split; [reflexivity|]. intros f [<-|Hf]; [reflexivity|now apply Hr].
Qed.
Lemma read_w x : four_digits x -> read_part (str "w" ++ fmt_e3 x) = Some (FTau x).
Proof using.
  intros H. unfold read_part. rewrite has_int6_no_i.
  - rewrite prefixb_app. change (skipn 1 (str "w" ++ fmt_e3 x)) with (fmt_e3 x). now rewrite (fmt_four x H).
  - change (str "w" ++ fmt_e3 x) with ("w"%char :: fmt_e3 x). intros [X|X]; [discriminate|]. revert X. apply fmt_no; [now apply four_digits_pos|not_number].
Qed.
Lemma read_int k : read_part (str "int" ++ padded 6 k) = Some (FInt k).
Proof using.
  unfold read_part. replace (has_int6 (str "int" ++ padded 6 k)) with true.
  - change (skipn 3 (str "int" ++ padded 6 k)) with (padded 6 k). now rewrite parse_padded.
  - symmetry. apply has_int6_spec. exists (firstn 6 (padded 6 k)). split; [rewrite firstn_length; assert (X := padded_length 6 k); lia|]. split.
    + intros c Hc. apply is_digit_in. apply (padded_digits 6 k). rewrite <- (firstn_skipn 6 (padded 6 k)). apply in_app_iff. now left.
    + exists [], (skipn 6 (padded 6 k)). cbn [app]. rewrite <- app_assoc. now rewrite firstn_skipn.
Qed.
Definition leftover (b : bool) (t : task) : path := match k_kind t with Between => [] | Over _ => if b then str ".pickle" else [] end.
Lemma stem_of_file b t : four_digits (k_tau t) -> fst (splitext (file_stem net t ++ suffix b t)) = file_stem net t ++ leftover b t.
Proof using Hnet.
  intros H. assert (Hs := stem_no_slash net t (four_digits_pos _ H) Hnet). destruct (stem_not_dots net t) as (c & Hc & Nc).
  assert (E : exists e, suffix b t = leftover b t ++ "."%char :: e /\ ~ In "."%char e /\ ~ In "/"%char e).
  { unfold suffix, leftover. destruct (k_kind t), b; [exists (str "gz")|exists (str "pickle")|exists (str "gz")|exists (str "pickle")]; (split; [reflexivity|]);
    split; cbn; intros X; repeat (destruct X as [X|X]; [discriminate|]); destruct X. }
  destruct E as (e & E & E1 & E2). rewrite E, app_assoc. erewrite splitext_with; [|apply with_ext; try eassumption]; [reflexivity| |].
  - rewrite not_in_app. split; [exact Hs|]. unfold leftover. destruct (k_kind t), b; cbn; intros X; repeat (destruct X as [X|X]; [discriminate|]); destruct X.
  - exists c. split; [apply in_app_iff; now left|exact Nc].
Qed.
Lemma read_stem b t : quiet net -> four_digits (k_tau t) -> exists l l', read_name (file_stem net t ++ suffix b t) = Some (l ++ FTau (k_tau t) :: FInt (k_int t) :: l') /\ plain l /\ plain l'.
Proof using Hnet.
  intros Hq H. unfold read_name. rewrite (stem_of_file b t H), stem_tail, <- !app_assoc. destruct (quiet_parts Hq) as (l & El & Hl).
  change (net ++ str "_tau_w" ++ fmt_e3 (k_tau t) ++ str "_int" ++ padded 6 (k_int t) ++ str "_" ++ tail t ++ leftover b t)
    with (net ++ "_"%char :: str "tau" ++ "_"%char :: (str "w" ++ fmt_e3 (k_tau t)) ++ "_"%char :: (str "int" ++ padded 6 (k_int t)) ++ "_"%char :: tail t ++ leftover b t).
  rewrite !split_us_app. rewrite (split_us_single (str "w" ++ _)), (split_us_single (str "int" ++ _)).
  - change (split_us (str "tau")) with [str "tau"]. rewrite !map_app. cbn [map]. rewrite (read_w _ H), read_int, all_some_app, El. cbn [app].
    change (read_part (str "tau")) with (Some FNothing). cbn [all_some].
    assert (E : exists l', all_some (map read_part (split_us (tail t ++ leftover b t))) = Some l' /\ plain l').
    { exists (map (fun _ => FNothing) (split_us (tail t ++ leftover b t))). split; [destruct t as [tau k [|] [|[|]]], b; reflexivity|]. intros f Hf. apply in_map_iff in Hf. now destruct Hf as (x & <- & _). }
    destruct E as (l' & -> & Hl'). exists (l ++ [FNothing]), l'. rewrite <- app_assoc. split; [reflexivity|]. split; [|exact Hl'].
    intros f Hf. apply in_app_iff in Hf. destruct Hf as [Hf|[<-|[]]]; [now apply Hl|reflexivity].
  - change (str "int" ++ padded 6 (k_int t)) with ("i"%char :: "n"%char :: "t"%char :: padded 6 (k_int t)). intros [X|[X|[X|X]]]; try discriminate. revert X. now apply padded_no.
  - change (str "w" ++ fmt_e3 (k_tau t)) with ("w"%char :: fmt_e3 (k_tau t)). intros [X|X]; [discriminate|]. revert X. apply fmt_no; [now apply four_digits_pos|not_number].
Qed.
Lemma read_adj k : quiet net -> exists l, read_name (adj_name net k) = Some (l ++ [FInt k]) /\ plain l.
Proof using Hnet.
  intros Hq. destruct (quiet_parts Hq) as (l & El & Hl). unfold read_name, adj_name.
  assert (E : splitext (net ++ str "_static_adjacency" ++ str "_int" ++ padded 6 k ++ str ".pickle") = (net ++ str "_static_adjacency" ++ str "_int" ++ padded 6 k, str ".pickle")).
  { apply splitext_with. change (str ".pickle") with ("."%char :: str "pickle"). rewrite !app_assoc. apply with_ext.
    - rewrite !not_in_app. repeat split; try assumption; try (now apply padded_no); cbn; intros X; repeat (destruct X as [X|X]; [discriminate|]); destruct X.
    - exists "_"%char. split; [|discriminate]. rewrite !in_app_iff. left. right. now left.
    - cbn; intros X; repeat (destruct X as [X|X]; [discriminate|]); destruct X.
    - cbn; intros X; repeat (destruct X as [X|X]; [discriminate|]); destruct X. }
  rewrite E. cbn [fst].
  change (net ++ str "_static_adjacency" ++ str "_int" ++ padded 6 k) with (net ++ "_"%char :: str "static" ++ "_"%char :: str "adjacency" ++ "_"%char :: (str "int" ++ padded 6 k)).
  rewrite !split_us_app. change (split_us (str "static")) with [str "static"]. change (split_us (str "adjacency")) with [str "adjacency"]. rewrite (split_us_single (str "int" ++ _)).
  - rewrite !map_app. cbn [map]. rewrite read_int, all_some_app, El. cbn [app]. change (read_part (str "static")) with (Some FNothing). change (read_part (str "adjacency")) with (Some FNothing).
    cbn [all_some]. exists (l ++ [FNothing; FNothing]). rewrite <- app_assoc. split; [reflexivity|]. intros f Hf. apply in_app_iff in Hf. destruct Hf as [Hf|[<-|[<-|[]]]]; [now apply Hl|reflexivity|reflexivity].
  - change (str "int" ++ padded 6 k) with ("i"%char :: "n"%char :: "t"%char :: padded 6 k). intros [X|[X|[X|X]]]; try discriminate. revert X. now apply padded_no.
Qed.
End Step1.

(** sets in increasing order *)
Section Sets.
Context {X : Type} (lt : X -> X -> Prop) (ltb eqb : X -> X -> bool).
Hypothesis Hlt : forall x y, reflect (lt x y) (ltb x y).
Hypothesis Heq : forall x y, reflect (x = y) (eqb x y).
Hypothesis Htrans : forall x y z, lt x y -> lt y z -> lt x z.
Hypothesis Htotal : forall x y, x = y \/ lt x y \/ lt y x.
Lemma increasing_nil : increasing lt [].
Proof using. intros [|i] j x y _ H; discriminate. Qed.
Lemma increasing_cons x l : increasing lt (x :: l) <-> (forall y, In y l -> lt x y) /\ increasing lt l.
Proof using.
  split.
  - intros H. split; [intros y Hy; apply In_nth_error in Hy; destruct Hy as (j & Hj); apply (H 0 (S j)); [lia|reflexivity|exact Hj]|].
    intros i j a b Hij Ha Hb. apply (H (S i) (S j)); [lia|exact Ha|exact Hb].
  - intros [H1 H2] [|i] [|j] a b Hij Ha Hb; try lia.
    + cbn in Ha, Hb. injection Ha as <-. apply H1. now apply nth_error_In in Hb.
    + cbn in Ha, Hb. apply (H2 i j); [lia|exact Ha|exact Hb].
Qed.
Lemma in_insert x l y : In y (insert_set ltb eqb x l) <-> y = x \/ In y l.
Proof using Heq.
  clear - Heq. induction l as [|z l IH]; cbn [insert_set In]; [intuition|]. destruct (Heq x z) as [->|N]; [cbn [In]; intuition|].
  destruct (ltb x z); cbn [In]; [intuition|]. rewrite IH. intuition.
Qed.
Lemma insert_increasing x l : increasing lt l -> increasing lt (insert_set ltb eqb x l).
Proof using Hlt Heq Htrans Htotal.
  induction l as [|z l IH]; intros H; cbn [insert_set].
  - apply increasing_cons. split; [intros y []|apply increasing_nil].
  - destruct (Heq x z) as [->|N]; [exact H|]. assert (H' := proj1 (increasing_cons _ _) H). destruct H' as [H1 H2]. destruct (Hlt x z) as [L|L].
    + apply increasing_cons. split; [|exact H]. intros y [<-|Hy]; [exact L|]. apply (Htrans x z y); [exact L|now apply H1].
    + apply increasing_cons. split; [|now apply IH]. intros y Hy. apply in_insert in Hy. destruct Hy as [->|Hy]; [|now apply H1]. destruct (Htotal x z) as [E|[E|E]]; [now destruct N|now destruct L|exact E].
Qed.
Lemma collected {F} (pick : F -> option X) (l : list F) :
  let r := fold_right (fun f s => match pick f with Some k => insert_set ltb eqb k s | None => s end) [] l in increasing lt r /\ forall x, In x r <-> exists f, In f l /\ pick f = Some x.
Proof using Hlt Heq Htrans Htotal.
  induction l as [|f l IH]; cbn zeta; cbn [fold_right].
  - split; [apply increasing_nil|]. intros x. split; [intros []|intros (f & [] & _)].
  - cbn zeta in IH. destruct IH as [I1 I2]. destruct (pick f) as [k|] eqn:E.
    + split; [now apply insert_increasing|]. intros x. rewrite in_insert, I2. split.
      * intros [->|(g & Hg & Eg)]; [exists f; split; [now left|exact E]|exists g; split; [now right|exact Eg]].
      * intros (g & [<-|Hg] & Eg); [left; congruence|right; now exists g].
    + split; [exact I1|]. intros x. rewrite I2. split; intros (g & Hg & Eg); [exists g; split; [now right|exact Eg]|]. destruct Hg as [<-|Hg]; [congruence|now exists g].
Qed.
End Sets.
Lemma all_some_in {X} (l : list (option X)) : (forall o, In o l -> o <> None) -> exists r, all_some l = Some r /\ forall x, In x r <-> In (Some x) l.
Proof.
  induction l as [|o l IH]; intros H.
  - exists []. split; [reflexivity|]. intros x. split; intros [].
  - destruct o as [y|]; [|exfalso; now apply (H None (or_introl eq_refl))]. destruct IH as (r & E & Hr); [intros o Ho; apply H; now right|].
    cbn [all_some]. rewrite E. exists (y :: r). split; [reflexivity|]. intros x. cbn [In]. rewrite Hr. split; intros [Hx|Hx]; auto; left; congruence.
Qed.
Lemma read_dir_spec names : (forall p, In p names -> read_name p <> None) -> exists ints taus, read_dir names = Some (ints, taus) /\ increasing Nat.lt ints /\ increasing Qclt taus /\
  (forall k, In k ints <-> exists p l, In p names /\ read_name p = Some l /\ In (FInt k) l) /\ (forall x, In x taus <-> exists p l, In p names /\ read_name p = Some l /\ In (FTau x) l).
Proof.
  intros H. destruct (all_some_in (map read_name names)) as (r & E & Hr); [intros o Ho; apply in_map_iff in Ho; destruct Ho as (p & <- & Hp); now apply H|].
  unfold read_dir. rewrite E.
  assert (C1 := collected Nat.lt Nat.ltb Nat.eqb Nat.ltb_spec0 Nat.eqb_spec Nat.lt_trans ltac:(intros; lia) (fun f => match f with FInt k => Some k | _ => None end) (concat r)).
  assert (Ht : forall x y : num, x = y \/ (x < y)%num \/ (y < x)%num) by (intros x y; destruct (Qc_dec x y) as [[?|?]|?]; auto).
  assert (C2 := collected Qclt qltb qeqb qltb_spec qeqb_spec Qclt_trans Ht (fun f => match f with FTau k => Some k | _ => None end) (concat r)).
  cbn zeta in C1, C2.
  assert (Hin : forall g, In g (concat r) <-> exists p l, In p names /\ read_name p = Some l /\ In g l).
  { intros g. rewrite in_concat. split.
    - intros (l & Hl & Hg). apply Hr in Hl. apply in_map_iff in Hl. destruct Hl as (p & Ep & Hp). exists p, l. auto.
    - intros (p & l & Hp & Ep & Hg). exists l. split; [|exact Hg]. apply Hr. rewrite <- Ep. now apply in_map. }
  eexists. eexists. split; [reflexivity|].
  assert (F1 : forall l, fold_right (fun f s => match f with FInt k => insert_set Nat.ltb Nat.eqb k s | _ => s end) [] l = fold_right (fun f s => match (match f with FInt k => Some k | _ => None end) with Some k => insert_set Nat.ltb Nat.eqb k s | None => s end) [] l).
  { induction l as [|f l IH]; [reflexivity|]. cbn [fold_right]. rewrite IH. destruct f; reflexivity. }
  assert (F2 : forall l, fold_right (fun f s => match f with FTau k => insert_set qltb qeqb k s | _ => s end) [] l = fold_right (fun f s => match (match f with FTau k => Some k | _ => None end) with Some k => insert_set qltb qeqb k s | None => s end) [] l).
  { induction l as [|f l IH]; [reflexivity|]. cbn [fold_right]. rewrite IH. destruct f; reflexivity. }
  rewrite F1, F2. split; [apply C1|]. split; [apply C2|]. split.
  - intros k. rewrite (proj2 C1). split.
    + intros (f & Hf & Ef). destruct f; try discriminate. injection Ef as ->. now apply Hin.
    + intros Hk. exists (FInt k). split; [now apply Hin|reflexivity].
  - intros x. rewrite (proj2 C2). split.
    + intros (f & Hf & Ef). destruct f; try discriminate. injection Ef as ->. now apply Hin.
    + intros Hk. exists (FTau x). split; [now apply Hin|reflexivity].
Qed.
Lemma plain_in l f : plain l -> In f l -> f = FNothing.
Proof. intros H. apply H. Qed.
Lemma read_step1 {A} compress compute (adj : nat -> A) net calls (d : dir A) : quiet net -> (forall t, In (SaveTask t) calls -> four_digits (k_tau t)) -> dir_ok compress compute adj net calls d ->
  exists ints taus, read_dir (map fst d) = Some (ints, taus) /\ increasing Nat.lt ints /\ increasing Qclt taus /\
  (forall k, In k ints <-> interval_saved calls k) /\ (forall x, In x taus <-> tau_saved calls x).
Proof.
  intros Hq H4 (I1 & I2 & I3). assert (Hn := proj1 Hq).
  destruct (read_dir_spec (map fst d)) as (ints & taus & E & H1 & H2 & H3 & H5).
  - intros p Hp. apply in_map_iff in Hp. destruct Hp as (f & <- & Hf). destruct (I1 f Hf) as [(t & Ht & ->)|(k & Hk & ->)].
    + cbn [entry fst]. destruct (read_stem net Hn (compress t) t Hq (H4 t Ht)) as (l & l' & -> & _). discriminate.
    + cbn [adj_entry fst]. destruct (read_adj net Hn k Hq) as (l & -> & _). discriminate.
  - exists ints, taus. split; [exact E|]. split; [exact H1|]. split; [exact H2|]. split.
    + intros k. rewrite H3. split.
      * intros (p & l & Hp & El & Hl). apply in_map_iff in Hp. destruct Hp as (f & <- & Hf). destruct (I1 f Hf) as [(t & Ht & ->)|(k' & Hk & ->)]; cbn [entry adj_entry fst] in El.
        -- destruct (read_stem net Hn (compress t) t Hq (H4 t Ht)) as (l1 & l2 & E' & P1 & P2). rewrite E' in El. injection El as <-. apply in_app_iff in Hl.
           destruct Hl as [Hl|[Hl|[Hl|Hl]]]; [apply P1 in Hl; discriminate|discriminate| |apply P2 in Hl; discriminate]. injection Hl as <-. left. now exists t.
        -- destruct (read_adj net Hn k' Hq) as (l1 & E' & P1). rewrite E' in El. injection El as <-. apply in_app_iff in Hl. destruct Hl as [Hl|[Hl|[]]]; [apply P1 in Hl; discriminate|]. injection Hl as <-. now right.
      * intros [(t & Ht & <-)|Hk].
        -- destruct (read_stem net Hn (compress t) t Hq (H4 t Ht)) as (l1 & l2 & E' & _). eexists. eexists. split; [apply in_map; apply (I2 t Ht)|]. split; [exact E'|]. apply in_app_iff. right. right. now left.
        -- destruct (read_adj net Hn k Hq) as (l1 & E' & _). eexists. eexists. split; [apply in_map; apply (I3 k Hk)|]. split; [exact E'|]. apply in_app_iff. right. now left.
    + intros x. rewrite H5. split.
      * intros (p & l & Hp & El & Hl). apply in_map_iff in Hp. destruct Hp as (f & <- & Hf). destruct (I1 f Hf) as [(t & Ht & ->)|(k' & Hk & ->)]; cbn [entry adj_entry fst] in El.
        -- destruct (read_stem net Hn (compress t) t Hq (H4 t Ht)) as (l1 & l2 & E' & P1 & P2). rewrite E' in El. injection El as <-. apply in_app_iff in Hl.
           destruct Hl as [Hl|[Hl|[Hl|Hl]]]; [apply P1 in Hl; discriminate| |discriminate|apply P2 in Hl; discriminate]. injection Hl as <-. now exists t.
        -- destruct (read_adj net Hn k' Hq) as (l1 & E' & P1). rewrite E' in El. injection El as <-. apply in_app_iff in Hl. destruct Hl as [Hl|[Hl|[]]]; [apply P1 in Hl; discriminate|discriminate].
      * intros (t & Ht & <-). destruct (read_stem net Hn (compress t) t Hq (H4 t Ht)) as (l1 & l2 & E' & _). eexists. eexists. split; [apply in_map; apply (I2 t Ht)|]. split; [exact E'|]. apply in_app_iff. right. now left.
Qed.

(** * Integrals *)
Definition middle (temp lin : bool) : path := match temp, lin with false, false => str "_PT_" | false, true => str "_PT_lin_" | true, false => str "_temp_integration_" | true, true => str "_temp_integration_lin_" end.
Definition any_name (temp : bool) (net : path) (tau : num) (lin : bool) (a b : nat) : path :=
  net ++ str "_tau_w" ++ fmt_e3 tau ++ middle temp lin ++ padded 6 a ++ str "_to_" ++ padded 6 b ++ str ".pickle".
Lemma integral_any net tau lin a b : integral_name net tau lin a b = any_name false net tau lin a b.
Proof. unfold integral_name, any_name, middle. now destruct lin. Qed.
Lemma temp_any net tau lin a b : temp_name net tau lin a b = any_name true net tau lin a b.
Proof. unfold temp_name, any_name, middle. now destruct lin. Qed.
Definition parts_of (temp : bool) (tau : num) (lin : bool) (a b : nat) : list path :=
  str "tau" :: (str "w" ++ fmt_e3 tau) :: (if temp then [str "temp"; str "integration"] else [str "PT"]) ++ (if lin then [str "lin"] else []) ++ [padded 6 a; str "to"; padded 6 b ++ str ".pickle"].
Lemma w_no_us tau : (0 < tau)%num -> ~ In "_"%char (str "w" ++ fmt_e3 tau).
Proof. intros H. change (str "w" ++ fmt_e3 tau) with ("w"%char :: fmt_e3 tau). intros [X|X]; [discriminate|]. revert X. apply fmt_no; [exact H|not_number]. Qed.
Lemma last_no_us b : ~ In "_"%char (padded 6 b ++ str ".pickle").
Proof. rewrite not_in_app. split; [now apply padded_no|]. cbn; intros X; repeat (destruct X as [X|X]; [discriminate|]); destruct X. Qed.
Lemma split_name temp net tau lin a b : (0 < tau)%num -> split_us (any_name temp net tau lin a b) = split_us net ++ parts_of temp tau lin a b.
Proof.
  intros H.
  assert (E : any_name temp net tau lin a b = net ++ "_"%char :: str "tau" ++ "_"%char :: (str "w" ++ fmt_e3 tau) ++ "_"%char ::
    match temp, lin with false, false => str "PT" ++ "_"%char :: padded 6 a ++ "_"%char :: str "to" ++ "_"%char :: (padded 6 b ++ str ".pickle")
                       | false, true => str "PT" ++ "_"%char :: str "lin" ++ "_"%char :: padded 6 a ++ "_"%char :: str "to" ++ "_"%char :: (padded 6 b ++ str ".pickle")
                       | true, false => str "temp" ++ "_"%char :: str "integration" ++ "_"%char :: padded 6 a ++ "_"%char :: str "to" ++ "_"%char :: (padded 6 b ++ str ".pickle")
                       | true, true => str "temp" ++ "_"%char :: str "integration" ++ "_"%char :: str "lin" ++ "_"%char :: padded 6 a ++ "_"%char :: str "to" ++ "_"%char :: (padded 6 b ++ str ".pickle") end).
  { unfold any_name, middle. destruct temp, lin; reflexivity. }
  rewrite E. destruct temp, lin; rewrite !split_us_app; rewrite (split_us_single (str "w" ++ fmt_e3 tau)) by (now apply w_no_us); rewrite (split_us_single (padded 6 a)) by (now apply padded_no);
    rewrite (split_us_single (padded 6 b ++ str ".pickle")) by apply last_no_us; reflexivity.
Qed.
Lemma any_name_inj temp temp' net tau tau' lin lin' a a' b b' : four_digits tau -> four_digits tau' ->
  any_name temp net tau lin a b = any_name temp' net tau' lin' a' b' -> temp = temp' /\ tau = tau' /\ lin = lin' /\ a = a' /\ b = b'.
Proof.
  intros H H' E. apply (f_equal split_us) in E. rewrite !split_name in E by (now apply four_digits_pos). apply app_inv_head in E. unfold parts_of in E.
  injection E as Ef E. assert (Ht : tau = tau') by now apply fmt_inj.
  assert (D : forall k s, padded 6 k = s -> is_digit (hd "x"%char s) = true).
  { intros k s <-. assert (P := padded_length 6 k). assert (Q := padded_digits 6 k). destruct (padded 6 k) as [|c r]; [cbn in P; lia|]. apply Q. now left. }
  assert (D1 : forall k, padded 6 k <> str "lin") by (intros k X; now apply D in X). assert (D2 : forall k, str "lin" <> padded 6 k) by (intros k X; symmetry in X; now apply D in X).
  destruct temp, temp', lin, lin'; cbn [app] in E; try discriminate E; injection E; intros; try (exfalso; (eapply D1; eassumption) || (eapply D2; eassumption));
    repeat split; try assumption; try (eapply padded_inj; eassumption); eapply padded_inj; eapply app_inv_tail; eassumption.
Qed.

(** parts put together again *)
Fixpoint join_us (l : list path) : path := match l with [] => [] | x :: r => match r with [] => x | _ => x ++ "_"%char :: join_us r end end.
Lemma split_us_cons p : exists h t, split_us p = h :: t.
Proof. destruct (split_us_first p) as (h & t & E & _). now exists h, t. Qed.
Lemma join_split p : join_us (split_us p) = p.
Proof.
  remember (length p) as k eqn:Ek. revert p Ek. induction k as [k IH] using lt_wf_ind. intros p Ek.
  destruct (split_us_first p) as (h & t & E & Hh & Hp). destruct Hp as [->|(r & -> & ->)].
  - now rewrite (split_us_single h Hh).
  - rewrite E. cbn [join_us]. destruct (split_us_cons r) as (h' & t' & E'). rewrite E' at 1. rewrite <- (IH (length r)) with (p := r) at 2; [reflexivity| |reflexivity]. rewrite Ek, app_length. cbn [length]. lia.
Qed.
Lemma join_app l x r : l <> [] -> join_us (l ++ x :: r) = join_us l ++ "_"%char :: join_us (x :: r).
Proof.
  induction l as [|y l IH]; intros H; [now destruct H|]. destruct l as [|z l]; [reflexivity|]. specialize (IH ltac:(discriminate)).
  cbn [app] in *. change (join_us (y :: z :: l ++ x :: r)) with (y ++ "_"%char :: join_us (z :: l ++ x :: r)). rewrite IH.
  change (join_us (y :: z :: l)) with (y ++ "_"%char :: join_us (z :: l)). now rewrite <- app_assoc.
Qed.
Lemma split_inj p q : split_us p = split_us q -> p = q.
Proof. intros E. rewrite <- (join_split p), <- (join_split q). now rewrite E. Qed.
(** two ways of cutting a list *)
Lemma cut_twice {X} (a b c d : list X) : a ++ b = c ++ d -> (exists m, c = a ++ m /\ b = m ++ d) \/ (exists m, a = c ++ m /\ d = m ++ b).
Proof.
  revert c. induction a as [|x a IH]; intros c E; [left; now exists c|]. destruct c as [|y c]; [right; exists (x :: a); split; [reflexivity|now symmetry]|].
  cbn [app] in E. injection E as -> E. destruct (IH c E) as [(m & -> & ->)|(m & -> & ->)]; [left|right]; now exists m.
Qed.
Lemma cons_inj {X} (x y : X) l m : x :: l = y :: m -> x = y /\ l = m.
Proof. intros E. now injection E. Qed.
(** a network whose files start like those of another *)
Lemma starts_like temp net net' tau lin a b : (0 < tau)%num -> starts_with (net ++ str "_tau_w") (any_name temp net' tau lin a b) -> net' = net \/ starts_with (net ++ str "_tau_w") net'.
Proof.
  intros Ht (r & E). assert (E2 := f_equal split_us E). rewrite (split_name _ _ _ _ _ _ Ht) in E2.
  assert (Er : (net ++ str "_tau_w") ++ r = net ++ "_"%char :: str "tau" ++ "_"%char :: (str "w" ++ r)) by (rewrite <- app_assoc; reflexivity).
  rewrite Er, !split_us_app in E2. change (split_us (str "tau")) with [str "tau"] in E2. cbn [app] in E2.
  assert (Hw : exists h t, split_us (str "w" ++ r) = (str "w" ++ h) :: t /\ (h ++ match t with [] => [] | _ => "_"%char :: join_us t end) = r).
  { change (str "w" ++ r) with ("w"%char :: r). cbn [split_us]. change (Ascii.eqb "w" "_") with false. destruct (split_us_cons r) as (h & t & Er'). rewrite Er'. exists h, t. split; [reflexivity|].
    rewrite <- (join_split r), Er'. destruct t; [cbn; now rewrite app_nil_r|reflexivity]. }
  destruct Hw as (h & t & Ew & Eh). rewrite Ew in E2. apply cut_twice in E2. destruct E2 as [(m & E1 & E3)|(m & E1 & E3)].
  - left. destruct m as [|y m]; [rewrite app_nil_r in E1; now apply split_inj|]. exfalso. cbn [app] in E3. unfold parts_of in E3. apply cons_inj in E3. destruct E3 as [_ E3].
    assert (Hin : In (str "tau") ((str "w" ++ fmt_e3 tau) :: (if temp then [str "temp"; str "integration"] else [str "PT"]) ++ (if lin then [str "lin"] else []) ++ [padded 6 a; str "to"; padded 6 b ++ str ".pickle"])).
    { rewrite E3. apply in_app_iff. right. now left. }
    assert (D : forall k s, padded 6 k ++ s <> str "tau").
    { intros k s X. assert (P := padded_length 6 k). assert (Q := padded_digits 6 k). destruct (padded 6 k) as [|c l]; [cbn in P; lia|]. injection X as X _. specialize (Q c (or_introl eq_refl)). subst c. discriminate Q. }
    destruct Hin as [X|X]; [discriminate X|]. rewrite !in_app_iff in X. destruct X as [X|[X|X]].
    + destruct temp; cbn [In] in X; repeat (destruct X as [X|X]; [discriminate X|]); destruct X.
    + destruct lin; cbn [In] in X; repeat (destruct X as [X|X]; [discriminate X|]); destruct X.
    + destruct X as [X|[X|[X|[]]]]; [apply (D a []); now rewrite app_nil_r|discriminate X|now apply (D b (str ".pickle"))].
  - destruct m as [|y m]; [left; rewrite app_nil_r in E1; now apply split_inj|]. cbn [app] in E3. apply cons_inj in E3. destruct E3 as [<- E3]. destruct m as [|z m]; [cbn [app parts_of] in E3; unfold parts_of in E3; discriminate E3|].
    cbn [app] in E3. apply cons_inj in E3. destruct E3 as [<- E3]. right. rewrite <- (join_split net'), E1. rewrite join_app by (destruct (split_us_cons net) as (h0 & t0 & ->); discriminate). rewrite join_split.
    change (join_us (str "tau" :: (str "w" ++ h) :: m)) with (str "tau" ++ "_"%char :: join_us ((str "w" ++ h) :: m)).
    exists (h ++ match m with [] => [] | _ => "_"%char :: join_us m end). rewrite <- app_assoc. f_equal. destruct m; [cbn; now rewrite app_nil_r|reflexivity].
Qed.
(** where a string can be found *)
Lemma contains_part s p : s <> [] -> ~ In "_"%char s -> contains s p -> exists q, In q (split_us p) /\ contains s q.
Proof.
  intros Hs Hu. remember (length p) as k eqn:Ek. revert p Ek. induction k as [k IH] using lt_wf_ind. intros p Ek (x & y & E).
  destruct (split_us_first p) as (h & t & Et & Hh & Hp). destruct Hp as [->|(r & -> & ->)].
  - exists h. rewrite Et. split; [now left|]. now exists x, y.
  - rewrite Et. assert (E' : x ++ (s ++ y) = h ++ "_"%char :: r) by now symmetry. apply cut_twice in E'. destruct E' as [(m & -> & E')|(m & -> & E')].
    + apply cut_twice in E'. destruct E' as [(m' & -> & E')|(m' & -> & E')].
      * exists (x ++ s ++ m'). split; [now left|]. now exists x, m'.
      * destruct m' as [|c m']; [rewrite app_nil_r; exists (x ++ m); split; [now left|]; exists x, []; now rewrite app_nil_r|].
        exfalso. cbn [app] in E'. injection E' as <- _. apply Hu. apply in_app_iff. right. now left.
    + destruct m as [|c m].
      * cbn [app] in E'. destruct s as [|c s]; [now destruct Hs|]. cbn [app] in E'. injection E' as <- _. exfalso. apply Hu. now left.
      * cbn [app] in E'. injection E' as <- E'. destruct (IH (length r)) with (p := r) as (q & Hq & Cq); [rewrite Ek, app_length; cbn [length]; lia|reflexivity|now exists m, y|]. exists q. split; [now right|exact Cq].
Qed.
Lemma part_contains p q s : In q (split_us p) -> contains s q -> contains s p.
Proof. intros Hq (x & y & ->). apply split_us_part in Hq. destruct Hq as (a & b & -> & _). exists (a ++ x), (y ++ b). now rewrite <- !app_assoc. Qed.
Lemma contains_chars s p c : contains s p -> In c s -> In c p.
Proof. intros (x & y & ->) H. apply in_app_iff. right. apply in_app_iff. now left. Qed.
Lemma own_no_pTpint temp net tau lin a b : (0 < tau)%num -> ~ contains (str "pTpint") net -> ~ contains (str "pTpint") (any_name temp net tau lin a b).
Proof.
  intros Ht Hn H. apply contains_part in H; [|discriminate|cbn; intros X; repeat (destruct X as [X|X]; [discriminate|]); destruct X].
  destruct H as (q & Hq & Cq). rewrite (split_name _ _ _ _ _ _ Ht) in Hq. apply in_app_iff in Hq. destruct Hq as [Hq|Hq]; [now apply Hn, (part_contains net q)|].
  assert (HT : In "T"%char q) by (apply (contains_chars _ _ _ Cq); cbn; tauto). assert (Hp : In "p"%char q) by (apply (contains_chars _ _ _ Cq); cbn; tauto). clear Cq.
  unfold parts_of in Hq. cbn [In] in Hq. rewrite !in_app_iff in Hq.
  destruct Hq as [<-|[<-|[Hq|[Hq|Hq]]]].
  - cbn in HT. repeat (destruct HT as [HT|HT]; [discriminate|]). destruct HT.
  - change (str "w" ++ fmt_e3 tau) with ("w"%char :: fmt_e3 tau) in HT. destruct HT as [HT|HT]; [discriminate|]. revert HT. apply fmt_no; [exact Ht|not_number].
  - destruct temp; cbn [In] in Hq; repeat (destruct Hq as [<-|Hq]; [cbn in HT, Hp; (repeat (destruct HT as [HT|HT]; [discriminate|]); contradiction) || (repeat (destruct Hp as [Hp|Hp]; [discriminate|]); contradiction)|]); destruct Hq.
  - destruct lin; cbn [In] in Hq; repeat (destruct Hq as [<-|Hq]; [cbn in HT; repeat (destruct HT as [HT|HT]; [discriminate|]); contradiction|]); destruct Hq.
  - cbn [In] in Hq. destruct Hq as [<-|[<-|[<-|[]]]].
    + revert HT. now apply padded_no.
    + cbn in HT. repeat (destruct HT as [HT|HT]; [discriminate|]). destruct HT.
    + apply in_app_iff in HT. destruct HT as [HT|HT]; [revert HT; now apply padded_no|]. cbn in HT. repeat (destruct HT as [HT|HT]; [discriminate|]). destruct HT.
Qed.
Lemma own_no_temp net tau lin a b : (0 < tau)%num -> ~ contains (str "temp_integration") net -> ~ contains (str "temp_integration") (any_name false net tau lin a b).
Proof.
  intros Ht Hn (x & y & E). apply (f_equal split_us) in E. rewrite (split_name _ _ _ _ _ _ Ht) in E.
  assert (Er : x ++ str "temp_integration" ++ y = (x ++ str "temp") ++ "_"%char :: (str "integration" ++ y)) by (rewrite <- app_assoc; reflexivity).
  rewrite Er, split_us_app in E. destruct (split_us_cons (str "integration" ++ y)) as (v & R & Ev).
  assert (Hv : exists v', v = str "integration" ++ v').
  { destruct (split_us_first (str "integration" ++ y)) as (h & t & Et & Hh & Hp). rewrite Ev in Et. injection Et as <- <-. destruct Hp as [<-|(r & Ep & _)]; [now exists y|].
    apply cut_twice in Ep. destruct Ep as [(m & -> & _)|(m & Em & Ep)]; [now exists m|]. destruct m as [|c m]; [rewrite app_nil_r in Em; exists []; now rewrite app_nil_r|].
    exfalso. cbn [app] in Ep. injection Ep as <- _. assert (X : In "_"%char (str "integration")) by (rewrite Em; apply in_app_iff; right; now left). cbn in X. repeat (destruct X as [X|X]; [discriminate|]). destruct X. }
  destruct Hv as (v' & ->). rewrite Ev in E. apply cut_twice in E. destruct E as [(m & E1 & E2)|(m & E1 & E2)].
  - assert (Hin : In (str "integration" ++ v') (parts_of false tau lin a b)) by (rewrite E2; apply in_app_iff; right; now left).
    unfold parts_of in Hin. cbn [In app] in Hin. rewrite in_app_iff in Hin.
    assert (D : forall k s, padded 6 k ++ s <> str "integration" ++ v').
    { intros k s X. assert (P := padded_length 6 k). assert (Q := padded_digits 6 k). destruct (padded 6 k) as [|c l]; [cbn in P; lia|]. injection X as X _. specialize (Q c (or_introl eq_refl)). subst c. discriminate Q. }
    destruct Hin as [X|[X|[X|[X|X]]]]; try discriminate X.
    + destruct lin; cbn [In] in X; [destruct X as [X|[]]; discriminate X|destruct X].
    + cbn [In] in X. destruct X as [X|[X|[X|[]]]]; [apply (D a []); now rewrite app_nil_r|discriminate X|now apply (D b (str ".pickle"))].
  - destruct m as [|z m].
    + assert (X : In (str "integration" ++ v') (parts_of false tau lin a b)) by (cbn [app] in E2; rewrite <- E2; now left). unfold parts_of in E2. cbn [app] in E2. discriminate E2.
    + cbn [app] in E2. apply cons_inj in E2. destruct E2 as [<- E2]. apply Hn. rewrite <- (join_split net), E1, join_app by (destruct (split_us_cons (x ++ str "temp")) as (h0 & t0 & ->); discriminate). rewrite join_split.
      exists x, (v' ++ match m with [] => [] | _ => "_"%char :: join_us m end). rewrite <- app_assoc. f_equal. change (str "temp_integration") with (str "temp" ++ "_"%char :: str "integration"). rewrite <- app_assoc. f_equal.
      destruct m; [cbn; now rewrite app_nil_r|]. cbn [join_us]. now rewrite <- !app_assoc.
Qed.
Lemma temp_has net tau lin a b : contains (str "temp_integration") (any_name true net tau lin a b).
Proof.
  destruct lin; [exists (net ++ str "_tau_w" ++ fmt_e3 tau ++ str "_"), (str "_lin_" ++ padded 6 a ++ str "_to_" ++ padded 6 b ++ str ".pickle")|
    exists (net ++ str "_tau_w" ++ fmt_e3 tau ++ str "_"), (str "_" ++ padded 6 a ++ str "_to_" ++ padded 6 b ++ str ".pickle")]; unfold any_name, middle; rewrite <- !app_assoc; reflexivity.
Qed.
(** start and stop *)
Lemma start_stop_name net tau lin a b : four_digits tau -> ~ In "/"%char net -> start_stop (integral_name net tau lin a b) = Some (Nat.min a b, Nat.max a b).
Proof.
  intros H Hn. assert (Hp := four_digits_pos _ H). rewrite integral_any. unfold start_stop.
  assert (E : fst (splitext (any_name false net tau lin a b)) = (net ++ str "_tau_w" ++ fmt_e3 tau ++ middle false lin) ++ padded 6 a ++ str "_to_" ++ padded 6 b).
  { erewrite (splitext_with _ ((net ++ str "_tau_w" ++ fmt_e3 tau ++ middle false lin) ++ padded 6 a ++ str "_to_" ++ padded 6 b) (str ".pickle")); [reflexivity|].
    replace (any_name false net tau lin a b) with (((net ++ str "_tau_w" ++ fmt_e3 tau ++ middle false lin) ++ padded 6 a ++ str "_to_" ++ padded 6 b) ++ "."%char :: str "pickle") by (unfold any_name; rewrite <- !app_assoc; reflexivity).
    apply with_ext.
    - rewrite !not_in_app. repeat split; try assumption; try (now apply padded_no); try (apply fmt_no; [exact Hp|not_number]); try (destruct lin); cbn; intros X; repeat (destruct X as [X|X]; [discriminate|]); destruct X.
    - exists "_"%char. split; [|discriminate]. rewrite !in_app_iff. left. right. left. now left.
    - cbn; intros X; repeat (destruct X as [X|X]; [discriminate|]); destruct X.
    - cbn; intros X; repeat (destruct X as [X|X]; [discriminate|]); destruct X. }
  rewrite E.
  assert (Es : exists L, split_us ((net ++ str "_tau_w" ++ fmt_e3 tau ++ middle false lin) ++ padded 6 a ++ str "_to_" ++ padded 6 b) = L ++ [padded 6 a; str "to"; padded 6 b]).
  { assert (X : exists z, (net ++ str "_tau_w" ++ fmt_e3 tau ++ middle false lin) ++ padded 6 a ++ str "_to_" ++ padded 6 b = z ++ "_"%char :: padded 6 a ++ "_"%char :: str "to" ++ "_"%char :: padded 6 b).
    { exists (net ++ str "_tau_w" ++ fmt_e3 tau ++ removelast (middle false lin)). rewrite <- !app_assoc. destruct lin; reflexivity. }
    destruct X as (z & ->). rewrite !split_us_app. rewrite (split_us_single (padded 6 a)), (split_us_single (padded 6 b)) by (now apply padded_no). exists (split_us z). reflexivity. }
  destruct Es as (L & ->). rewrite rev_app_distr. cbn [rev app]. now rewrite !parse_padded.
Qed.
