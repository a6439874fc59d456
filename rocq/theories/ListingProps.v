(** Theorem C198: the order in which the directory of matrices is listed. *)
From Coq Require Import Ascii String Permutation.
From Verif Require Import Base LouvainModel SparseModel EventsModel TransModel FileModel FileSpec FileProofs NamesModel NamesSpec NamesProofs NamesParts NamesProps ListingModel.
Local Open Scope list_scope.

(** ** Vocabulary *)
(** the file is a pickle, compressed if and only if its name ends in ".gz" *)
Definition readable {A} (f : path * option (format * content A)) : Prop :=
  exists c, (snd f = Some (Gzip, c) /\ exists s, fst f = s ++ str ".gz") \/ (snd f = Some (Plain, c) /\ ~ exists s, fst f = s ++ str ".gz").
(** the file is a dictionary of matrices of a network of [k] nodes *)
Definition counts {A} (nodes : A -> nat) (f : path * option (format * content A)) (k : nat) : Prop :=
  exists fm lamda x, snd f = Some (fm, CMat lamda x) /\ nodes x = k.

(** ** Proofs *)
Lemma gz_name_spec p : gz_name p = true <-> exists s, p = s ++ str ".gz".
Proof.
  unfold gz_name. split.
  - destruct (path_eqb_spec (skipn (length p - 3) p) (str ".gz")) as [E|_]; [intros _|discriminate]. exists (firstn (length p - 3) p). rewrite <- E. now rewrite firstn_skipn.
  - intros (s & ->). match goal with |- path_eqb ?a ?b = true => destruct (path_eqb_spec a b) as [_|N]; [reflexivity|] end. elim N. rewrite app_length. replace (length s + length (str ".gz") - 3) with (length s + 0) by (cbn; lia).
    rewrite skipn_app, skipn_all2 by lia. replace (length s + 0 - length s) with 0 by lia. reflexivity.
Qed.
Lemma readable_unpickle {A} (f : path * option (format * content A)) : readable f -> exists fm c, snd f = Some (fm, c) /\ unpickle f = Some c.
Proof.
  intros (c & [(E & H)|(E & H)]).
  - exists Gzip, c. split; [exact E|]. unfold unpickle. rewrite E. apply gz_name_spec in H. now rewrite H.
  - exists Plain, c. split; [exact E|]. unfold unpickle. rewrite E. destruct (gz_name (fst f)) eqn:G; [|reflexivity]. apply gz_name_spec in G. now elim H.
Qed.
Lemma find_nodes_spec {A} (nodes : A -> nat) (l : listing A) : (forall f, In f l -> readable f) ->
  match find_nodes nodes l with
  | Some k => exists f, In f l /\ counts nodes f k
  | None => forall f k, In f l -> ~ counts nodes f k
  end.
Proof.
  induction l as [|f l IH]; intros H; [intros f k []|]. cbn [find_nodes].
  destruct (readable_unpickle f (H f (or_introl eq_refl))) as (fm & c & E & ->).
  specialize (IH (fun g Hg => H g (or_intror Hg))). destruct c as [lamda x|x|x]; cbn [num_nodes_of].
  - exists f. split; [now left|]. exists fm, lamda, x. auto.
  - destruct (find_nodes nodes l) as [k|].
    + destruct IH as (g & Hg & Hc). exists g. split; [now right|exact Hc].
    + intros g k [<-|Hg]; [|now apply IH]. intros (fm' & lamda & y & E' & _). rewrite E in E'. discriminate E'.
  - destruct (find_nodes nodes l) as [k|].
    + destruct IH as (g & Hg & Hc). exists g. split; [now right|exact Hc].
    + intros g k [<-|Hg]; [|now apply IH]. intros (fm' & lamda & y & E' & _). rewrite E in E'. discriminate E'.
Qed.
Lemma increasing_tail {X} (lt : X -> X -> Prop) x l : increasing lt (x :: l) -> increasing lt l /\ forall y, In y l -> lt x y.
Proof.
  intros H. split.
  - intros i j a b Hij Ha Hb. apply (H (S i) (S j)); [lia|exact Ha|exact Hb].
  - intros y Hy. apply In_nth_error in Hy. destruct Hy as (i & Hi). apply (H 0 (S i)); [lia|reflexivity|exact Hi].
Qed.
Lemma increasing_unique {X} (lt : X -> X -> Prop) (irr : forall x, ~ lt x x) (tr : forall x y z, lt x y -> lt y z -> lt x z) :
  forall l l', increasing lt l -> increasing lt l' -> (forall x, In x l <-> In x l') -> l = l'.
Proof.
  induction l as [|x l IH]; intros l' Hl Hl' E.
  - destruct l' as [|y l']; [reflexivity|]. destruct (proj2 (E y) (or_introl eq_refl)).
  - destruct l' as [|y l']; [destruct (proj1 (E x) (or_introl eq_refl))|].
    apply increasing_tail in Hl. apply increasing_tail in Hl'. destruct Hl as (Hl & Hx). destruct Hl' as (Hl' & Hy).
    assert (x = y).
    { destruct (proj1 (E x) (or_introl eq_refl)) as [->|H1]; [reflexivity|]. destruct (proj2 (E y) (or_introl eq_refl)) as [->|H2]; [reflexivity|].
      elim (irr x). apply (tr x y x); auto. }
    subst y. f_equal. apply IH; [exact Hl|exact Hl'|]. intros z. split; intros Hz.
    + destruct (proj1 (E z) (or_intror Hz)) as [<-|H1]; [|exact H1]. elim (irr x). now apply Hx.
    + destruct (proj2 (E z) (or_intror Hz)) as [<-|H1]; [|exact H1]. elim (irr x). now apply Hy.
Qed.
Lemma all_some_none {X} (l : list (option X)) : In None l -> all_some l = None.
Proof. induction l as [|[x|] l IH]; cbn; [intros []| |reflexivity]. intros [X1|H]; [discriminate X1|]. now rewrite IH. Qed.
Lemma read_dir_none names p : In p names -> read_name p = None -> read_dir names = None.
Proof. intros Hp E. unfold read_dir. rewrite all_some_none; [reflexivity|]. rewrite <- E. now apply in_map. Qed.
Lemma read_dir_same names names' : (forall p, In p names <-> In p names') -> read_dir names = read_dir names'.
Proof.
  intros E. destruct (existsb (fun p => match read_name p with None => true | _ => false end) names) eqn:X.
  - apply existsb_exists in X. destruct X as (p & Hp & Ep). destruct (read_name p) eqn:R; [discriminate Ep|].
    rewrite (read_dir_none names p Hp R). symmetry. apply (read_dir_none names' p); [now apply E|exact R].
  - assert (H : forall p, In p names -> read_name p <> None).
    { intros p Hp R. assert (Y : existsb (fun p => match read_name p with None => true | _ => false end) names = true) by (apply existsb_exists; exists p; rewrite R; auto). rewrite X in Y. discriminate Y. }
    destruct (read_dir_spec names H) as (ints & taus & -> & I1 & I2 & I3 & I4).
    destruct (read_dir_spec names') as (ints' & taus' & -> & J1 & J2 & J3 & J4); [intros p Hp; apply H; now apply E|].
    f_equal. f_equal.
    + apply (increasing_unique Nat.lt Nat.lt_irrefl Nat.lt_trans); [exact I1|exact J1|]. intros k. rewrite I3, J3. split; intros (p & l & Hp & R); exists p, l; (split; [now apply E|exact R]).
    + apply (increasing_unique Qclt); [intros x Hx; exact (Qclt_not_eq _ _ Hx eq_refl)|exact Qclt_trans|exact I2|exact J2|]. intros k. rewrite I4, J4. split; intros (p & l & Hp & R); exists p, l; (split; [now apply E|exact R]).
Qed.
Lemma find_nodes_same {A} (nodes : A -> nat) (l l' : listing A) : (forall f, In f l <-> In f l') -> (forall f, In f l -> readable f) ->
  (forall f g k k', In f l -> In g l -> counts nodes f k -> counts nodes g k' -> k = k') -> find_nodes nodes l = find_nodes nodes l'.
Proof.
  intros E Hr Hc. assert (F := find_nodes_spec nodes l Hr). assert (F' := find_nodes_spec nodes l' (fun f Hf => Hr f (proj2 (E f) Hf))).
  destruct (find_nodes nodes l) as [k|]; destruct (find_nodes nodes l') as [k'|]; [| | |reflexivity].
  - destruct F as (f & Hf & Cf). destruct F' as (g & Hg & Cg). f_equal. apply (Hc f g); [exact Hf|now apply E|exact Cf|exact Cg].
  - destruct F as (f & Hf & Cf). elim (F' f k); [now apply E|exact Cf].
  - destruct F' as (f & Hf & Cf). elim (F f k'); [now apply E|exact Cf].
Qed.

(** ** C198: the order in which the directory is listed does not matter *)
Definition C198_statement : Prop := forall (A : Type) (nodes : A -> nat) (l l' : listing A), Permutation l l' -> inputs nodes l = inputs nodes l'.
(** matrices of two networks, of 3 and of 5 nodes, in one directory: each of the orders gives the
    number of nodes of one of them *)
Theorem C198_two_networks_refuted : ~ C198_statement.
Proof.
  intros H. set (t := mkTask (qn 1) 0 false Between). set (run := fun k net => listed (run_step1 (fun _ => false) (fun _ => k) (fun _ => 0) net [SaveTask t] [])).
  specialize (H nat (fun k => k) (run 3 (str "day") ++ run 5 (str "night")) (run 5 (str "night") ++ run 3 (str "day")) (Permutation_app_comm _ _)).
  assert (X : option_map fst (inputs (fun k => k) (run 3 (str "day") ++ run 5 (str "night"))) = Some 3) by (vm_compute; reflexivity).
  assert (Y : option_map fst (inputs (fun k => k) (run 5 (str "night") ++ run 3 (str "day"))) = Some 5) by (vm_compute; reflexivity).
  rewrite H, Y in X. discriminate X.
Qed.
(** with a file that is not a pickle, the script fails if it is listed before the matrices *)
Theorem C198_other_file_refuted : ~ forall (A : Type) (nodes : A -> nat) (l l' : listing A), Permutation l l' ->
  (forall f g k k', In f l -> In g l -> counts nodes f k -> counts nodes g k' -> k = k') -> inputs nodes l = inputs nodes l'.
Proof.
  intros H. set (t := mkTask (qn 1) 0 false Between). set (run := listed (run_step1 (fun _ => false) (fun _ => 3) (fun _ => 0) (str "day") [SaveTask t] [])).
  set (notes := (str "README.md", None) : path * option (format * content nat)).
  specialize (H nat (fun k => k) (notes :: run) (run ++ [notes]) (Permutation_cons_append _ _)).
  assert (X : inputs (fun k => k) (notes :: run) = None) by (vm_compute; reflexivity).
  assert (Y : option_map fst (inputs (fun k => k) (run ++ [notes])) = Some 3) by (vm_compute; reflexivity).
  rewrite <- H, X in Y; [discriminate Y|].
  intros f g k k' Hf Hg (fm & la & x & Ef & <-) (fm' & la' & x' & Eg & <-).
  assert (G : forall h fm la x, In h (notes :: run) -> snd h = Some (fm, CMat la x) -> x = 3).
  { clear. intros h fm la x [<-|[<-|[]]] E; [discriminate E|]. cbn [snd] in E. congruence. }
  now rewrite (G _ _ _ _ Hf Ef), (G _ _ _ _ Hg Eg).
Qed.
(** it does not if all files are pickles and the matrices are of networks of the same number of
    nodes; nor does it matter whether a file is listed twice *)
Theorem C198_order_partial : forall (A : Type) (nodes : A -> nat) (l l' : listing A), (forall f, In f l <-> In f l') -> (forall f, In f l -> readable f) ->
  (forall f g k k', In f l -> In g l -> counts nodes f k -> counts nodes g k' -> k = k') -> inputs nodes l = inputs nodes l'.
Proof.
  intros A nodes l l' E Hr Hc. unfold inputs. rewrite (find_nodes_same nodes l l' E Hr Hc). rewrite (read_dir_same (map fst l) (map fst l')); [reflexivity|].
  intros p. rewrite !in_map_iff. split; intros (f & <- & Hf); exists f; (split; [reflexivity|now apply E]).
Qed.
(** after the first step, any order gives the number of nodes, the intervals and the waiting times
    of the network *)
Theorem C198_first_step_partial : forall (A : Type) (nodes : A -> nat) compress (compute : task -> A) adj net calls k l, quiet net -> (forall t, In (SaveTask t) calls -> four_digits (k_tau t)) ->
  (forall t, In (SaveTask t) calls -> nodes (compute t) = k) -> (exists t, In (SaveTask t) calls) ->
  Permutation l (listed (run_step1 compress compute adj net calls [])) ->
  exists ints taus, inputs nodes l = Some (k, (ints, taus)) /\ increasing Nat.lt ints /\ increasing Qclt taus /\
  (forall j, In j ints <-> interval_saved calls j) /\ (forall x, In x taus <-> tau_saved calls x).
Proof.
  intros A nodes compress compute adj net calls k l Hq H4 Hk (t0 & Ht0) P. assert (Hd := step1_ok compress compute adj net (proj1 Hq) calls H4).
  set (d := run_step1 compress compute adj net calls []) in *.
  destruct (read_step1 compress compute adj net calls d Hq H4 Hd) as (ints & taus & E & I1 & I2 & I3 & I4). exists ints, taus. split; [|auto].
  assert (Hin : forall f, In f (listed d) -> exists g, In g d /\ f = (fst g, Some (snd g))) by (intros f Hf; apply in_map_iff in Hf; destruct Hf as (g & <- & Hg); exists g; auto).
  destruct Hd as (D1 & D2 & _).
  assert (Hr : forall f, In f (listed d) -> readable f).
  { intros f Hf. destruct (Hin f Hf) as (g & Hg & ->). destruct (D1 g Hg) as [(t & _ & ->)|(j & _ & ->)]; unfold entry, adj_entry; cbn [fst snd].
    - eexists. destruct (compress t); [left|right]; (split; [reflexivity|]); unfold suffix; cbn [fst].
      + destruct (k_kind t); [now exists (file_stem net t)|]. exists (file_stem net t ++ str ".pickle"). now rewrite <- app_assoc.
      + intros (s & X). apply (f_equal (@rev ascii)) in X. rewrite !rev_app_distr in X. destruct (k_kind t); discriminate X.
    - eexists. right. split; [reflexivity|]. intros (s & X). unfold adj_name in X. apply (f_equal (@rev ascii)) in X. cbn [fst] in X. rewrite !rev_app_distr in X. discriminate X. }
  assert (Hc : forall f j, In f (listed d) -> counts nodes f j -> j = k).
  { intros f j Hf (fm & la & x & Ef & <-). destruct (Hin f Hf) as (g & Hg & ->). cbn [snd] in Ef. destruct (D1 g Hg) as [(t & Ht & ->)|(j & _ & ->)]; cbn [entry adj_entry snd] in Ef; [|discriminate Ef].
    assert (x = compute t) by congruence. subst x. now apply Hk. }
  rewrite (C198_order_partial A nodes l (listed d)).
  - unfold inputs. assert (F := find_nodes_spec nodes (listed d) Hr). destruct (find_nodes nodes (listed d)) as [j|].
    + destruct F as (f & Hf & Cf). rewrite (Hc f j Hf Cf). replace (map fst (listed d)) with (map fst d); [now rewrite E|]. unfold listed. rewrite map_map. now apply map_ext.
    + elim (F (fst (entry compress compute net t0), Some (snd (entry compress compute net t0))) k).
      * unfold listed. apply (in_map (fun f => (fst f, Some (snd f)))). now apply D2.
      * eexists. eexists. eexists. split; [reflexivity|]. now apply Hk.
  - intros f. split; intros Hf; [now apply (Permutation_in _ P)|]. now apply (Permutation_in _ (Permutation_sym P)).
  - intros f Hf. apply Hr. now apply (Permutation_in _ P).
  - intros f g j j' Hf Hg Cf Cg. rewrite (Hc f j (Permutation_in _ P Hf) Cf), (Hc g j' (Permutation_in _ P Hg) Cg). reflexivity.
Qed.
Example C198_applies : quiet day /\ (forall t, In (SaveTask t) calls3 -> four_digits (k_tau t)) /\
  (let d := listed (run_step1 (fun _ => true) (fun t => 4) (fun k => k) day calls3 []) in
   option_map (fun r => (fst r, fst (snd r))) (inputs (fun k => k) (rev d)) = Some (4, [3; 12]) /\ option_map (fun r => (fst r, fst (snd r))) (inputs (fun k => k) d) = Some (4, [3; 12])).
Proof. split; [exact day_quiet|]. split; [exact calls3_four|]. vm_compute. auto. Qed.

Print Assumptions C198_two_networks_refuted.
Print Assumptions C198_other_file_refuted.
Print Assumptions C198_order_partial.
Print Assumptions C198_first_step_partial.
