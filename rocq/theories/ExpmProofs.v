(** Stationary matrices and matrix exponentials assembled from parts. *)
From Verif Require Import Base LouvainModel SparseModel SparseSpec SparseProofs SparseOpsProofs SparseConvProofs EventsModel EventsSpec TransModel TransSpec MatProofs TransProofs.

Lemma members_spec n lab c j : In j (members n lab c) <-> j < n /\ lab j = c.
Proof. unfold members. rewrite filter_In, Nat.eqb_eq, in_seq. intuition lia. Qed.
Lemma members_NoDup n lab c : NoDup (members n lab c).
Proof. apply filter_NoDup, seq_NoDup. Qed.

(** ** Rows given by a list of distinct columns *)
Lemma scattered_columns (cols : list nat) (g : nat -> num) j : NoDup cols ->
  scattered (map (fun b => (nth b cols 0, g b)) (seq 0 (length cols))) j = match pos j cols with Some b => g b | None => 0%num end.
Proof.
  intros Hn. unfold scattered. rewrite sumL_map. cbn [fst snd]. destruct (pos j cols) as [p|] eqn:EP.
  - rewrite (sumL_ext _ (fun b => if b =? p then g b else 0%num)).
    + apply sumN_delta. now apply pos_lt in EP.
    + intros b Hb. apply in_seq in Hb. destruct (Nat.eqb_spec b p) as [->|Hne].
      * rewrite (pos_nth _ _ _ 0 EP), Nat.eqb_refl. reflexivity.
      * destruct (Nat.eqb_spec (nth b cols 0) j) as [E|]; [|reflexivity]. exfalso. apply Hne. assert (H : pos j cols = Some b) by (rewrite <- E; apply pos_of_nth; [exact Hn|lia]). congruence.
  - apply sumL_zero. intros b Hb. apply in_seq in Hb. destruct (Nat.eqb_spec (nth b cols 0) j) as [E|]; [|reflexivity]. exfalso. apply pos_None in EP. apply EP. rewrite <- E. apply nth_In. lia.
Qed.
Lemma position_pos x l k : pos x l = Some k -> position x l = k.
Proof.
  revert k. induction l as [|y l IH]; cbn; [discriminate|]. intros k. destruct (x =? y); [now intros [= <-]|]. destruct (pos x l) as [p|]; [|discriminate]. intros [= <-]. now rewrite (IH p).
Qed.
Lemma assemble_spec n lab X : csr_ok n (assemble n lab X) /\
  forall i j, i < n -> j < n -> value (assemble n lab X) i j =
    if lab i =? lab j then X (lab i) (position i (members n lab (lab i))) (position j (members n lab (lab i))) else 0%num.
Proof.
  unfold assemble. split.
  - apply csr_ok_of_rows; [now rewrite map_length, seq_length|]. intros r e Hr He. apply in_map_iff in Hr. destruct Hr as (i & <- & Hi). apply in_map_iff in He. destruct He as (b & <- & Hb). cbn [fst].
    apply in_seq in Hb. assert (H : In (nth b (members n lab (lab i)) 0) (members n lab (lab i))) by (apply nth_In; lia). now apply members_spec in H.
  - intros i j Hi Hj. rewrite value_rows by (now rewrite map_length, seq_length). rewrite (nth_map_dep _ _ _ 0) by (now rewrite seq_length). rewrite seq_nth by exact Hi. cbn zeta. rewrite Nat.add_0_l.
    set (cmp := members n lab (lab i)). rewrite (scattered_columns cmp (fun b => X (lab i) (position i cmp) b)) by apply members_NoDup.
    destruct (pos j cmp) as [p|] eqn:EP.
    + assert (HI : In j cmp) by (apply pos_In; eauto). apply members_spec in HI. destruct HI as [_ ->]. rewrite Nat.eqb_refl. now rewrite (position_pos _ _ _ EP).
    + apply pos_None in EP. destruct (Nat.eqb_spec (lab i) (lab j)) as [E|]; [|reflexivity]. exfalso. apply EP. apply members_spec. auto.
Qed.

(** ** Powers of a matrix with closed classes *)
Section Sub.
Context (n : nat) (A : mat) (idx : list nat) (Hnd : NoDup idx) (Hin : forall i, In i idx -> i < n)
  (Hcl : forall i j, In j idx -> i < n -> A i j <> 0%num -> In i idx).
Lemma sub_power k : forall a b, a < length idx -> b < length idx -> power (length idx) (sub idx A) k a b = power n A k (nth a idx 0) (nth b idx 0).
Proof.
  induction k as [|k IH]; intros a b Ha Hb.
  - cbn. unfold ident. destruct (Nat.eqb_spec a b) as [->|Hne]; [now rewrite Nat.eqb_refl|].
    destruct (Nat.eqb_spec (nth a idx 0) (nth b idx 0)) as [E|]; [|reflexivity]. exfalso. apply Hne. apply (proj1 (NoDup_nth idx 0) Hnd); assumption.
  - cbn [power]. unfold mmul.
    rewrite (sumN_ext _ _ (fun l => (power n A k (nth a idx 0%nat) (nth l idx 0%nat) * A (nth l idx 0%nat) (nth b idx 0%nat))%num)) by (intros l Hl; rewrite IH by assumption; reflexivity).
    rewrite <- (sumL_nth idx (fun x => (power n A k (nth a idx 0%nat) x * A x (nth b idx 0%nat))%num) 0).
    rewrite <- (sumL_perm _ _ _ (sub_seq_perm idx n Hnd Hin)). rewrite sumL_filter. apply sumN_ext. intros l Hl. destruct (memb l idx) eqn:EM; [reflexivity|].
    destruct (Qc_eq_dec (A l (nth b idx 0)) 0%num) as [->|Hz]; [ring|]. exfalso. apply memb_false in EM. apply EM. apply (Hcl l (nth b idx 0)); [now apply nth_In|exact Hl|exact Hz].
Qed.
Lemma sub_poly c K a b : a < length idx -> b < length idx -> poly (length idx) c K (sub idx A) a b = poly n c K A (nth a idx 0) (nth b idx 0).
Proof. intros Ha Hb. unfold poly. apply sumN_ext. intros k _. now rewrite sub_power. Qed.
End Sub.
Lemma power_ext n A B k : eqm n A B -> eqm n (power n A k) (power n B k).
Proof. intros H. induction k as [|k IH]; [apply eqm_refl|]. cbn. now apply mmul_ext. Qed.
Lemma poly_ext n c K A B : eqm n A B -> eqm n (poly n c K A) (poly n c K B).
Proof. intros H i j Hi Hj. unfold poly. apply sumN_ext. intros k _. now rewrite (power_ext n A B k H i j). Qed.
Lemma power_apart n A n_comp lab k i j : closed_labels n A n_comp lab -> i < n -> j < n -> lab i <> lab j -> power n A k i j = 0%num.
Proof.
  intros [_ Hc] Hi. revert j. induction k as [|k IH]; intros j Hj Hne; cbn.
  - unfold ident. destruct (Nat.eqb_spec i j) as [->|]; [congruence|reflexivity].
  - unfold mmul. apply sumN_zero. intros l Hl. destruct (Nat.eq_dec (lab l) (lab j)) as [E|E].
    + rewrite IH; [ring|exact Hl|congruence].
    + destruct (Qc_eq_dec (A l j) 0%num) as [->|Hz]; [ring|]. exfalso. apply E. now apply Hc.
Qed.
Lemma poly_apart n c K A n_comp lab i j : closed_labels n A n_comp lab -> i < n -> j < n -> lab i <> lab j -> poly n c K A i j = 0%num.
Proof. intros. unfold poly. apply sumN_zero. intros k _. rewrite (power_apart n A n_comp lab k i j) by assumption. ring. Qed.
(** rows of sum 0 *)
Lemma power_sum n A k i : (forall i, i < n -> sumN n (A i) = 0%num) -> i < n -> sumN n (power n A (S k) i) = 0%num.
Proof.
  intros Hz Hi. cbn [power]. unfold mmul. rewrite sumN_swap. apply sumN_zero. intros l Hl. rewrite sumN_scal_l, (Hz l Hl). ring.
Qed.
Lemma poly_sum n c K A i : (forall i, i < n -> sumN n (A i) = 0%num) -> i < n -> sumN n (poly n c K A i) = c 0.
Proof.
  intros Hz Hi. unfold poly. rewrite sumN_swap. rewrite (sumN_ext (S K) _ (fun k => if k =? 0 then c k else 0%num)).
  - apply (sumN_delta (S K) 0 c). lia.
  - intros k _. rewrite sumN_scal_l. destruct k as [|k]; cbn [Nat.eqb].
    + cbn [power]. rewrite ident_sum by exact Hi. ring.
    + rewrite power_sum by assumption. ring.
Qed.

(** ** Assembly *)
Lemma assemble_poly n A c K n_comp lab X : closed_labels n A n_comp lab ->
  (forall cc, cc < n_comp -> eqm (length (members n lab cc)) (X cc) (poly (length (members n lab cc)) c K (sub (members n lab cc) A))) ->
  eqm n (value (assemble n lab X)) (poly n c K A).
Proof.
  intros Hc HX i j Hi Hj. rewrite (proj2 (assemble_spec n lab X) i j Hi Hj). destruct (Nat.eqb_spec (lab i) (lab j)) as [E|E].
  - set (cmp := members n lab (lab i)).
    assert (HPi : exists a, pos i cmp = Some a) by (apply pos_In, members_spec; auto). destruct HPi as [a Ea].
    assert (HPj : exists b, pos j cmp = Some b) by (apply pos_In, members_spec; auto). destruct HPj as [b Eb].
    rewrite (position_pos _ _ _ Ea), (position_pos _ _ _ Eb). rewrite (HX (lab i) (proj1 Hc i Hi) a b (pos_lt _ _ _ Ea) (pos_lt _ _ _ Eb)). fold cmp.
    rewrite (sub_poly n A cmp).
    + now rewrite (pos_nth _ _ _ 0 Ea), (pos_nth _ _ _ 0 Eb).
    + apply members_NoDup.
    + intros x Hx. now apply members_spec in Hx.
    + intros x y Hy Hx Hz. apply members_spec in Hy. destruct Hy as [Hy Hl]. apply members_spec. split; [exact Hx|]. rewrite <- Hl. now apply (proj2 Hc).
    + now apply pos_lt in Ea.
    + now apply pos_lt in Eb.
  - symmetry. now apply (poly_apart n c K A n_comp lab).
Qed.
Lemma finished_ok n norm M : csr_ok n M -> csr_ok n (finished n None norm M).
Proof.
  intros HM. unfold finished, thresholded. destruct norm; [|exact HM]. now destruct (normalise_rows n M (fun _ => 1%num) HM).
Qed.
Lemma finished_value n norm M i j : csr_ok n M -> i < n -> (norm = true -> sumN n (value M i) = 1%num) -> value (finished n None norm M) i j = value M i j.
Proof.
  intros HM Hi Hs. unfold finished, thresholded. destruct norm; [|reflexivity]. rewrite (scaled_value n M (fun _ => 1%num) i j HM Hi ltac:(discriminate)).
  rewrite (stored_sum_value n M i HM Hi), (Hs eq_refl). destruct (qeqb_spec 1%num 0%num) as [H|_]; [discriminate H|]. field. discriminate.
Qed.
Lemma finished_poly n c K A norm M : csr_ok n M -> eqm n (value M) (poly n c K A) -> (norm = true -> c 0 = 1%num /\ forall i, i < n -> sumN n (A i) = 0%num) ->
  eqm n (value (finished n None norm M)) (poly n c K A).
Proof.
  intros HM HV Hn i j Hi Hj. rewrite finished_value; [now apply HV|exact HM|exact Hi|]. intros Hx. destruct (Hn Hx) as [H0 Hz]. rewrite <- H0, <- (poly_sum n c K A i Hz Hi). apply sumN_ext. intros k Hk. now apply HV.
Qed.

(** ** The dictionary of the parallel version *)
Lemma fold_aset_get {V} (f : nat -> V) l d c : aget Nat.eqb (fold_left (fun d c => aset Nat.eqb d c (f c)) l d) c = if memb c l then Some (f c) else aget Nat.eqb d c.
Proof.
  revert d. induction l as [|x l IH]; intros d; cbn [fold_left]; [reflexivity|]. rewrite IH. cbn [memb]. unfold memb. cbn [existsb]. fold (memb c l). destruct (memb c l) eqn:EM.
  - now rewrite orb_true_r.
  - rewrite orb_false_r. destruct (Nat.eqb_spec c x) as [->|Hne].
    + now rewrite (aget_aset_same Nat.eqb Nat.eqb_spec).
    + now rewrite (aget_aset_other Nat.eqb Nat.eqb_spec).
Qed.
Lemma combine_map_r {A B} (f : A -> B) l : combine l (map f l) = map (fun c => (c, f c)) l.
Proof. induction l as [|a l IH]; cbn; [reflexivity|]. now rewrite IH. Qed.
Lemma fold_left_map_pair {V} (f : nat -> V) l d : fold_left (fun d (cr : nat * V) => aset Nat.eqb d (fst cr) (snd cr)) (map (fun c => (c, f c)) l) d = fold_left (fun d c => aset Nat.eqb d c (f c)) l d.
Proof. revert d. induction l as [|a l IH]; intros d; cbn; [reflexivity|]. apply IH. Qed.

Section Expm.
Context (c : nat -> num) (K : nat) (F : nat -> mat -> mat) (G : nat -> mat -> (nat -> num) -> nat -> num)
  (HF : computes_poly c K F) (HG : applies_poly c K G).
Lemma parallel_expm_poly m A : eqm m (parallel_expm G m A) (poly m c K A).
Proof.
  intros a b Ha Hb. unfold parallel_expm. rewrite (nth_map_dep _ _ _ 0) by (now rewrite seq_length). rewrite seq_nth by exact Hb. rewrite Nat.add_0_l, HG by exact Ha.
  rewrite (sumN_ext m _ (fun k => if k =? b then poly m c K A a k else 0%num)).
  - now rewrite sumN_delta.
  - intros k _. destruct (k =? b); ring.
Qed.
Lemma subspace_poly n A n_comp lab norm : closed_labels n A n_comp lab -> (norm = true -> c 0 = 1%num /\ forall i, i < n -> sumN n (A i) = 0%num) ->
  csr_ok n (subspace_expm F n A n_comp lab None norm) /\ eqm n (value (subspace_expm F n A n_comp lab None norm)) (poly n c K A).
Proof.
  intros Hc Hn. unfold subspace_expm. set (X := fun cc => nth cc _ _). split.
  - apply finished_ok, assemble_spec.
  - apply finished_poly; [apply assemble_spec| |exact Hn]. apply (assemble_poly n A c K n_comp lab X Hc). intros cc Hcc. unfold X. rewrite (nth_map_dep _ _ _ 0) by (now rewrite seq_length). rewrite seq_nth by exact Hcc. apply HF.
Qed.
Lemma subspace_parallel_poly big n A n_comp lab norm : closed_labels n A n_comp lab -> (norm = true -> c 0 = 1%num /\ forall i, i < n -> sumN n (A i) = 0%num) ->
  csr_ok n (subspace_expm_parallel F G big n A n_comp lab None norm) /\ eqm n (value (subspace_expm_parallel F G big n A n_comp lab None norm)) (poly n c K A).
Proof.
  intros Hc Hn. unfold subspace_expm_parallel. set (X := fun cc => match _ with Some X => X | None => ident end). split.
  - apply finished_ok, assemble_spec.
  - apply finished_poly; [apply assemble_spec| |exact Hn]. apply (assemble_poly n A c K n_comp lab X Hc). intros cc Hcc. unfold X.
    rewrite combine_map_r, fold_left_map_pair, !fold_aset_get. destruct (memb cc (filter (fun c0 => length (members n lab c0) <? big) (seq 0 n_comp))) eqn:ES; [apply HF|].
    destruct (memb cc (filter (fun c0 => big <=? length (members n lab c0)) (seq 0 n_comp))) eqn:EL; [apply parallel_expm_poly|]. exfalso.
    apply memb_false in ES, EL. rewrite filter_In in ES, EL. destruct (Nat.leb_spec big (length (members n lab cc))) as [H|H].
    + apply EL. split; [apply in_seq; lia|reflexivity].
    + apply ES. split; [apply in_seq; lia|]. now apply Nat.ltb_lt.
Qed.
End Expm.

(** ** csr_matrix(dense) *)
Lemma csr_of_dense_spec n A : csr_ok n (csr_of_dense n A) /\ eqm n (value (csr_of_dense n A)) A /\ no_repetition (csr_of_dense n A).
Proof.
  unfold csr_of_dense. set (row := fun i => filter _ _).
  assert (Hr : forall i, i < n -> row_entries (of_rows (map row (seq 0 n))) i = row i).
  { intros i Hi. rewrite row_entries_of_rows by (now rewrite map_length, seq_length). rewrite (nth_map_dep _ _ _ 0) by (now rewrite seq_length). now rewrite seq_nth. }
  assert (Hok : csr_ok n (of_rows (map row (seq 0 n)))).
  { apply csr_ok_of_rows; [now rewrite map_length, seq_length|]. intros r e Hr' He. apply in_map_iff in Hr'. destruct Hr' as (i & <- & _). apply filter_In in He. destruct He as [He _]. apply in_map_iff in He. destruct He as (j & <- & Hj). apply in_seq in Hj. cbn. lia. }
  split; [exact Hok|]. split.
  - intros i j Hi Hj. unfold value. rewrite Hr by exact Hi. unfold row. rewrite sumL_filter, sumL_map. cbn [fst snd]. transitivity (sumN n (fun k => if k =? j then A i k else 0%num)).
    + apply sumN_ext. intros k _. destruct (k =? j), (qeqb_spec (A i k) 0%num) as [E|]; cbn; congruence.
    + now rewrite sumN_delta.
  - intros i. destruct (Nat.lt_ge_cases i n) as [Hi|Hi].
    + rewrite Hr by exact Hi. unfold row. generalize (seq_NoDup n 0). generalize (seq 0 n). induction l as [|k l IH]; intros Hnd; [constructor|]. inversion Hnd as [|? ? Hk Hl]; subst. cbn [map filter snd]. destruct (negb (qeqb (A i k) 0%num)); [|now apply IH]. cbn [map fst]. constructor; [|now apply IH].
      intros Hx. apply in_map_iff in Hx. destruct Hx as ((k' & v) & E & Hx). cbn in E. subst k'. apply filter_In in Hx. destruct Hx as [Hx _]. apply in_map_iff in Hx. destruct Hx as (k'' & [= -> _] & Hx). contradiction.
    + unfold row_entries, row_range. destruct Hok as (HL & _). rewrite (nth_overflow _ 0 (n := S i)) by lia. cbn. constructor.
Qed.

(** ** Rows and columns without entries *)
Lemma used_false n L i : i < n -> used n L i = false -> forall j, j < n -> L i j = 0%num /\ L j i = 0%num.
Proof.
  intros Hi H j Hj. unfold used in H. apply orb_false_iff in H. destruct H as [H1 H2]. split.
  - destruct (qeqb_spec (L i j) 0%num) as [E|Hne]; [exact E|]. exfalso. rewrite <- not_true_iff_false in H1. apply H1. apply existsb_exists. exists j. split; [apply in_seq; lia|]. now destruct (qeqb_spec (L i j) 0%num).
  - destruct (qeqb_spec (L j i) 0%num) as [E|Hne]; [exact E|]. exfalso. rewrite <- not_true_iff_false in H2. apply H2. apply existsb_exists. exists j. split; [apply in_seq; lia|]. now destruct (qeqb_spec (L j i) 0%num).
Qed.
Lemma used_true n L i j : j < n -> L i j <> 0%num -> used n L i = true.
Proof.
  intros Hj Hne. unfold used. apply orb_true_iff. left. apply existsb_exists. exists j. split; [apply in_seq; lia|]. now destruct (qeqb_spec (L i j) 0%num).
Qed.
Lemma used_In n L i : In i (used_rowcols n L) <-> i < n /\ used n L i = true.
Proof. unfold used_rowcols. rewrite filter_In, in_seq. intuition lia. Qed.
Lemma used_sorted n L : StronglySorted lt (used_rowcols n L).
Proof. apply filter_sorted, seq_sorted. Qed.
Lemma power_outside n A k i j : i < n -> j < n -> (forall l, l < n -> A i l = 0%num) \/ (forall l, l < n -> A l j = 0%num) -> power n A (S k) i j = 0%num.
Proof.
  intros Hi. revert j. induction k as [|k IH]; intros j Hj H.
  - cbn [power]. rewrite mmul_ident_l by assumption. destruct H as [H|H]; now apply H.
  - cbn [power]. change (mmul n (mmul n (power n A k) A) A i j) with (sumN n (fun l => (power n A (S k) i l * A l j)%num)). apply sumN_zero. intros l Hl. destruct H as [H|H].
    + rewrite IH; [ring|exact Hl|now left].
    + rewrite (H l Hl). ring.
Qed.
Lemma poly_outside n c K A i j : c 0 = 1%num -> i < n -> j < n -> (forall l, l < n -> A i l = 0%num) \/ (forall l, l < n -> A l j = 0%num) -> poly n c K A i j = if i =? j then 1%num else 0%num.
Proof.
  intros H0 Hi Hj H. unfold poly. rewrite (sumN_ext (S K) _ (fun k => if k =? 0 then (c k * ident i j)%num else 0%num)).
  - rewrite (sumN_delta (S K) 0) by lia. rewrite H0. unfold ident. destruct (i =? j); ring.
  - intros [|k] _; cbn [Nat.eqb]; [reflexivity|]. rewrite (power_outside n A k i j) by assumption. ring.
Qed.
Lemma rep_poly n c K L f M : c 0 = 1%num -> csr_ok (length (used_rowcols n L)) M ->
  eqm (length (used_rowcols n L)) (value M) (poly (length (used_rowcols n L)) c K (mscal f (sub (used_rowcols n L) L))) ->
  represents (ssm_init n M (used_rowcols n L) 1%num) n (poly n c K (mscal f L)).
Proof.
  intros H0 HM HV. set (nz := used_rowcols n L) in *. assert (Hb : forall i, In i nz -> i < n) by (intros i Hi; now apply used_In in Hi).
  destruct (ssm_init_ok n M nz 1%num HM (used_sorted n L) Hb) as [E Hok]. eapply represents_rep; [exact E|exact Hok|reflexivity|].
  intros i j Hi Hj. unfold rep. cbn [s_nz s_small s_diag].
  assert (Hout : forall x, x < n -> pos x nz = None -> forall l, l < n -> mscal f L x l = 0%num /\ mscal f L l x = 0%num).
  { intros x Hx Hp l Hl. apply pos_None in Hp. assert (Hu : used n L x = false). { destruct (used n L x) eqn:EU; [|reflexivity]. exfalso. apply Hp. apply used_In. auto. }
    destruct (used_false n L x Hx Hu l Hl) as [E1 E2]. unfold mscal. rewrite E1, E2. split; ring. }
  destruct (pos i nz) as [a|] eqn:Ea; [|symmetry; apply poly_outside; [exact H0|exact Hi|exact Hj|left; intros l Hl; exact (proj1 (Hout i Hi Ea l Hl))]].
  destruct (pos j nz) as [b|] eqn:Eb; [|symmetry; apply poly_outside; [exact H0|exact Hi|exact Hj|right; intros l Hl; exact (proj2 (Hout j Hj Eb l Hl))]].
  rewrite (HV a b (pos_lt _ _ _ Ea) (pos_lt _ _ _ Eb)). change (mscal f (sub nz L)) with (sub nz (mscal f L)).
  rewrite (sub_poly n (mscal f L) nz).
  - now rewrite (pos_nth _ _ _ 0 Ea), (pos_nth _ _ _ 0 Eb).
  - apply sorted_NoDup, used_sorted.
  - exact Hb.
  - intros x y Hy Hx Hz. apply used_In. split; [exact Hx|]. apply (used_true n L x y); [now apply Hb|]. intros E0. apply Hz. unfold mscal. rewrite E0. ring.
  - now apply pos_lt in Ea.
  - now apply pos_lt in Eb.
Qed.

(** ** The exponential of a Laplacian *)
Lemma components_closed m A nc lab f : component_labels m A nc lab -> closed_labels m (mscal f A) nc lab.
Proof.
  intros [H1 H2]. split; [exact H1|]. intros i j Hi Hj Hz. apply H2; [exact Hi|exact Hj|]. apply (linked_step _ _ i i j); [now apply linked_refl|exact Hj|]. left. intros E. apply Hz. unfold mscal. rewrite E. ring.
Qed.
Lemma sub_sum n L a : a < length (used_rowcols n L) -> sumN n (L (nth a (used_rowcols n L) 0)) = 0%num -> sumN (length (used_rowcols n L)) (sub (used_rowcols n L) L a) = 0%num.
Proof.
  intros Ha Hz. rewrite <- Hz. set (nz := used_rowcols n L) in *. unfold sub. rewrite <- (sumL_nth nz (fun x => L (nth a nz 0) x) 0).
  assert (Hb : forall i, In i nz -> i < n) by (intros i Hi; now apply used_In in Hi). rewrite <- (sumL_perm _ _ _ (sub_seq_perm nz n (sorted_NoDup _ (used_sorted n L)) Hb)). rewrite sumL_filter. apply sumN_ext. intros l Hl. destruct (memb l nz) eqn:EM; [reflexivity|].
  apply memb_false in EM. assert (Hu : used n L l = false). { destruct (used n L l) eqn:EU; [|reflexivity]. exfalso. apply EM. apply used_In. auto. }
  symmetry. apply (used_false n L l Hl Hu). apply Hb, nth_In, Ha.
Qed.
Lemma used_nil n L : has_entries n L = false -> used_rowcols n L = [].
Proof.
  intros H. destruct (used_rowcols n L) as [|i l] eqn:E; [reflexivity|]. exfalso. assert (Hi : In i (used_rowcols n L)) by (rewrite E; now left). apply used_In in Hi. destruct Hi as [Hi Hu]. unfold used in Hu.
  apply orb_true_iff in Hu. destruct Hu as [Hu|Hu]; apply existsb_exists in Hu; destruct Hu as (j & Hj & Hz); apply in_seq in Hj; rewrite (has_entries_false n L H) in Hz by lia; discriminate Hz.
Qed.
Lemma sparse_lapl_expm_poly c K F G big comps n L fact dense nproc norm : computes_poly c K F -> applies_poly c K G -> c 0 = 1%num ->
  (forall m A, component_labels m A (fst (comps m A)) (snd (comps m A))) -> (forall i, i < n -> sumN n (L i) = 0%num) ->
  represents (sparse_lapl_expm F G big comps n L fact dense nproc None norm) n (poly n c K (mscal (- fact)%num L)).
Proof.
  intros HF HG H0 Hcomp Hz. unfold sparse_lapl_expm. destruct (has_entries n L) eqn:EH.
  - set (nz := used_rowcols n L). set (m := length nz). set (A := mscal (- fact)%num (sub nz L)). specialize (Hcomp m (sub nz L)). destruct (comps m (sub nz L)) as [nc lab]. cbn [fst snd] in Hcomp. apply (components_closed _ _ _ _ (- fact)%num) in Hcomp. fold A in Hcomp.
    assert (HA : forall i, i < m -> sumN m (A i) = 0%num).
    { intros i Hi. unfold A, mscal. rewrite sumN_scal_l. unfold m, nz. rewrite (sub_sum n L i Hi); [ring|]. apply Hz. assert (HI : In (nth i (used_rowcols n L) 0) (used_rowcols n L)) by (now apply nth_In). now apply used_In in HI. }
    assert (Hd : csr_ok m (csr_of_dense m (F m A)) /\ eqm m (value (csr_of_dense m (F m A))) (poly m c K A)).
    { destruct (csr_of_dense_spec m (F m A)) as (H1 & H2 & _). split; [exact H1|]. eapply eqm_trans; [exact H2|apply HF]. }
    destruct dense; [now apply rep_poly|]. destruct ((big <=? m) && (1 <? nc)); [|now apply rep_poly]. destruct (nproc =? 1).
    + destruct (subspace_poly c K F HF m A nc lab norm Hcomp ltac:(intros _; split; [exact H0|exact HA])). now apply rep_poly.
    + destruct (subspace_parallel_poly c K F G HF HG big m A nc lab norm Hcomp ltac:(intros _; split; [exact H0|exact HA])). now apply rep_poly.
  - pose proof (rep_poly n c K L (- fact)%num (mkCsr [] [] [0])) as H. rewrite (used_nil n L EH) in H. apply H; [exact H0| |intros i j Hi; inversion Hi].
    apply (csr_ok_of_rows 0 []); [reflexivity|]. intros r e [].
Qed.

(** ** The stationary matrix *)
Definition nonzeros (n : nat) (A : mat) (i : nat) : nat := length (filter (fun j => negb (qeqb (A i j) 0%num)) (seq 0 n)).
Lemma degs_nonzeros n T i : csr_ok n T -> no_repetition T -> i < n -> degs_of T i = nonzeros n (value T) i.
Proof.
  intros HT Hr Hi. unfold degs_of, nonzeros. rewrite (proj2 (eliminate_zeros_spec n T HT) i Hi). rewrite <- (map_length fst). apply Permutation_length. apply NoDup_Permutation; [|apply filter_NoDup, seq_NoDup|].
  - generalize (Hr i). generalize (row_entries T i). induction l as [|e l IH]; cbn; [constructor|]. intros H. inversion H as [|? ? Hn Hd]; subst. destruct (negb (qeqb (snd e) 0%num)); [|now apply IH]. cbn. constructor; [|now apply IH]. intros Hx. apply Hn. apply in_map_iff in Hx. destruct Hx as (e' & E & Hx). apply filter_In in Hx. rewrite <- E. now apply in_map.
  - intros j. rewrite filter_In, in_seq. split.
    + intros H. apply in_map_iff in H. destruct H as ([j' v] & E & H). cbn in E. subst j'. apply filter_In in H. destruct H as [H Hv]. cbn in Hv. assert (Hj : j < n) by (apply (row_entries_col n T i (j, v) HT Hi H)). split; [lia|].
      destruct (value_single T i j (Hr i)) as [(w & Hw & E)|[Hw _]]; [|exfalso; now apply (Hw v)]. rewrite E. replace w with v; [exact Hv|].
      pose proof (Hr i) as Hn. clear -H Hw Hn. induction (row_entries T i) as [|e l IH]; [destruct H|]. cbn in Hn. inversion Hn as [|? ? H1 H2]; subst. destruct H as [->|H], Hw as [Hw|Hw].
      * congruence.
      * exfalso. apply H1. now apply (in_map fst) in Hw.
      * subst e. exfalso. apply H1. now apply (in_map fst) in H.
      * now apply IH.
    + intros [Hj Hv]. destruct (value_single T i j (Hr i)) as [(w & Hw & E)|[_ E]]; rewrite E in Hv; [|discriminate Hv]. apply in_map_iff. exists (j, w). split; [reflexivity|]. apply filter_In. split; [exact Hw|]. exact Hv.
Qed.
Lemma sumL_members n lab c f : sumL f (members n lab c) = sumN n (fun j => if lab j =? c then f j else 0%num).
Proof. unfold members. apply sumL_filter. Qed.
Lemma stationary_value n lab T i j : csr_ok n T -> i < n -> j < n ->
  value (stationary_transition n lab T) i j = if lab i =? lab j then (qn (degs_of T j) / sumN n (fun k => if lab k =? lab i then qn (degs_of T k) else 0))%num else 0%num.
Proof.
  intros HT Hi Hj. unfold stationary_transition. rewrite value_rows by (now rewrite map_length, seq_length). rewrite (nth_map_dep _ _ _ 0) by (now rewrite seq_length). rewrite seq_nth by exact Hi. cbn zeta. rewrite Nat.add_0_l.
  unfold scattered. rewrite sumL_map. cbn [fst snd]. rewrite !sumL_members. rewrite (sumN_ext n _ (fun k => if k =? j then if lab i =? lab k then (qn (degs_of T k) / sumN n (fun k => if lab k =? lab i then qn (degs_of T k) else 0))%num else 0%num else 0%num)).
  - now rewrite sumN_delta.
  - intros k _. rewrite (Nat.eqb_sym (lab k)). destruct (lab i =? lab k), (k =? j); reflexivity.
Qed.
Lemma stationary_ok n lab T : csr_ok n (stationary_transition n lab T).
Proof.
  apply csr_ok_of_rows; [now rewrite map_length, seq_length|]. intros r e Hr He. apply in_map_iff in Hr. destruct Hr as (i & <- & Hi). apply in_map_iff in He. destruct He as (j & <- & Hj). now apply members_spec in Hj.
Qed.
Lemma stationary_stochastic n lab T : csr_ok n T -> (forall i, i < n -> 0 < degs_of T i) -> stochastic n (value (stationary_transition n lab T)).
Proof.
  intros HT Hd. assert (HS : forall i, i < n -> (0 < sumN n (fun k => if lab k =? lab i then qn (degs_of T k) else 0))%num).
  { intros i Hi. apply Qclt_le_trans with (qn (degs_of T i)); [rewrite <- qn_0; apply qn_lt; auto|]. rewrite <- (sumN_delta n i (fun k => qn (degs_of T k)) Hi). apply sumL_le. intros k _. destruct (Nat.eqb_spec k i) as [->|]; [rewrite Nat.eqb_refl; qlra|]. destruct (lab k =? lab i); [apply qn_nonneg|qlra]. }
  split.
  - intros i j Hi Hj. rewrite stationary_value by assumption. destruct (lab i =? lab j); [|qlra]. apply qdiv_nonneg; [apply qn_nonneg|now apply HS].
  - intros i Hi. rewrite (sumN_ext n _ (fun j => ((if lab j =? lab i then qn (degs_of T j) else 0) * / sumN n (fun k => if lab k =? lab i then qn (degs_of T k) else 0))%num)).
    + rewrite sumN_scal_r. field. specialize (HS i Hi). intros E. rewrite E in HS. qlra.
    + intros j Hj. rewrite stationary_value by assumption. rewrite Nat.eqb_sym. destruct (lab j =? lab i); [reflexivity|ring].
Qed.

(** *** of a walk *)
Definition steps_to (n : nat) (adj : nat -> nat -> bool) (i j : nat) : bool := adj i j || ((degree n adj i =? 0) && (i =? j)).
Lemma adj_degree n adj i j : j < n -> adj i j = true -> 0 < degree n adj i.
Proof.
  intros Hj Ha. unfold degree. assert (H : In j (filter (adj i) (seq 0 n))) by (apply filter_In; split; [apply in_seq; lia|exact Ha]). destruct (filter (adj i) (seq 0 n)); [destruct H|cbn; lia].
Qed.
Lemma steps_count n adj i : i < n -> 0 < length (filter (steps_to n adj i) (seq 0 n)) /\ forall j, j < n -> walk n adj i j = if steps_to n adj i j then (1 / qn (length (filter (steps_to n adj i) (seq 0 n))))%num else 0%num.
Proof.
  intros Hi. destruct (degree n adj i) as [|d] eqn:ED.
  - assert (Hf : filter (steps_to n adj i) (seq 0 n) = filter (fun j => i =? j) (seq 0 n)).
    { apply filter_ext_in. intros j Hj. apply in_seq in Hj. unfold steps_to. rewrite ED. cbn. destruct (adj i j) eqn:EA; [|reflexivity]. apply (adj_degree n) in EA; [lia|lia]. }
    assert (HL : length (filter (fun j => i =? j) (seq 0 n)) = 1).
    { assert (Hp : Permutation (filter (fun j => i =? j) (seq 0 n)) [i]). { apply NoDup_Permutation; [apply filter_NoDup, seq_NoDup|repeat constructor; intros []|]. intros x. rewrite filter_In, in_seq, Nat.eqb_eq. cbn. intuition lia. } now apply Permutation_length in Hp. }
    rewrite Hf, HL. split; [lia|]. intros j Hj. unfold walk. rewrite ED. unfold steps_to. rewrite ED. cbn. destruct (adj i j) eqn:EA; [apply (adj_degree n) in EA; lia|]. cbn. destruct (i =? j); [|reflexivity]. change (qn 1) with 1%num. field. discriminate.
  - assert (Hf : filter (steps_to n adj i) (seq 0 n) = filter (adj i) (seq 0 n)). { apply filter_ext. intros j. unfold steps_to. rewrite ED. cbn. apply orb_false_r. }
    rewrite Hf. fold (degree n adj i). rewrite ED. split; [lia|]. intros j Hj. unfold walk. rewrite ED. unfold steps_to. rewrite ED. cbn [Nat.eqb andb]. now rewrite orb_false_r.
Qed.
Lemma steps_sym n adj i j : (forall i j, i < n -> j < n -> adj i j = adj j i) -> i < n -> j < n -> steps_to n adj i j = steps_to n adj j i.
Proof.
  intros Hs Hi Hj. unfold steps_to. rewrite (Hs i j Hi Hj). destruct (adj j i); [reflexivity|]. cbn. destruct (Nat.eqb_spec i j) as [->|Hne]; [now rewrite Nat.eqb_refl|]. destruct (Nat.eqb_spec j i); [congruence|]. now rewrite !andb_false_r.
Qed.
Lemma walk_nonzeros n adj A i : eqm n A (walk n adj) -> i < n -> nonzeros n A i = length (filter (steps_to n adj i) (seq 0 n)) /\ forall j, j < n -> (A i j <> 0%num <-> steps_to n adj i j = true).
Proof.
  intros HA Hi. destruct (steps_count n adj i Hi) as [Hp Hw].
  assert (H : forall j, j < n -> (A i j <> 0%num <-> steps_to n adj i j = true)).
  { intros j Hj. rewrite (HA i j Hi Hj), (Hw j Hj). destruct (steps_to n adj i j); [|intuition discriminate]. split; [reflexivity|]. intros _ E. pose proof (qn_lt _ _ Hp) as Hq; rewrite qn_0 in Hq.
    assert (Hx : (0 < 1 / qn (length (filter (steps_to n adj i) (seq 0 n))))%num). { unfold Qcdiv. apply qmult_pos; [reflexivity|now apply qinv_pos]. } rewrite E in Hx. qlra. }
  split; [|exact H]. unfold nonzeros. f_equal. apply filter_ext_in. intros j Hj. apply in_seq in Hj. specialize (H j ltac:(lia)). destruct (qeqb_spec (A i j) 0%num) as [E|E], (steps_to n adj i j); cbn; try reflexivity; exfalso; intuition discriminate.
Qed.
Lemma count_sum (p : nat -> bool) n : qn (length (filter p (seq 0 n))) = sumN n (fun j => if p j then 1%num else 0%num).
Proof.
  unfold sumN. rewrite <- sumL_filter. rewrite sumL_const. ring.
Qed.
Lemma walk_stationary n adj T nc lab : csr_ok n T -> no_repetition T -> eqm n (value T) (walk n adj) -> (forall i j, i < n -> j < n -> adj i j = adj j i) -> component_labels n (value T) nc lab ->
  eqm n (mmul n (value (stationary_transition n lab T)) (value T)) (value (stationary_transition n lab T)).
Proof.
  intros HT Hr HV Hs HC. assert (HD : forall i, i < n -> degs_of T i = length (filter (steps_to n adj i) (seq 0 n))) by (intros i Hi; rewrite (degs_nonzeros n T i HT Hr Hi); now apply walk_nonzeros).
  intros r j Hr' Hj. unfold mmul. set (S := sumN n (fun k => if lab k =? lab r then qn (degs_of T k) else 0%num)).
  rewrite (sumN_ext n _ (fun i => ((if lab r =? lab j then (if steps_to n adj j i then 1 else 0) else 0) * / S)%num)).
  - rewrite sumN_scal_r. rewrite stationary_value by assumption. destruct (lab r =? lab j).
    + rewrite <- count_sum, <- HD by assumption. reflexivity.
    + rewrite sumN_zero by reflexivity. ring.
  - intros i Hi. rewrite stationary_value by assumption. fold S. rewrite (HV i j Hi Hj). destruct (steps_count n adj i Hi) as [Hp Hw]. rewrite (Hw j Hj), (steps_sym n adj j i Hs Hj Hi).
    destruct (steps_to n adj i j) eqn:ES.
    + assert (HL : lab i = lab j). { apply (proj2 HC i j Hi Hj). apply (linked_step _ _ i i j); [now apply linked_refl|exact Hj|]. left. now apply (walk_nonzeros n adj (value T) i HV Hi). }
      rewrite <- HL. destruct (lab r =? lab i); [|ring]. rewrite (HD i Hi). unfold Qcdiv. pose proof (qn_lt _ _ Hp) as Hq; rewrite qn_0 in Hq. set (q := qn _) in *. replace (q * / S * (1 * / q))%num with ((q * / q) * / S)%num by ring. rewrite Qcmult_inv_r; [ring|]. intros E. rewrite E in Hq. qlra.
    + destruct (lab r =? lab j), (lab r =? lab i); ring.
Qed.
(** *** the one used by compute_lin_inter_transition_matrices *)
Lemma dense_stationary_stochastic n lab A : stochastic n A -> stochastic n (value (stationary_transition n lab (csr_of_dense n A))).
Proof.
  intros [Hn Hs]. destruct (csr_of_dense_spec n A) as (H1 & H2 & H3). apply stationary_stochastic; [exact H1|]. intros i Hi. rewrite (degs_nonzeros n _ i H1 H3 Hi). unfold nonzeros. destruct (filter _ (seq 0 n)) as [|x l] eqn:EF; [|cbn; lia]. exfalso.
  assert (E : sumN n (A i) = 0%num). { apply sumN_zero. intros j Hj. destruct (Qc_eq_dec (A i j) 0%num) as [E|Hz]; [exact E|]. exfalso. assert (HI : In j (filter (fun j => negb (qeqb (value (csr_of_dense n A) i j) 0%num)) (seq 0 n))). { apply filter_In. split; [apply in_seq; lia|]. rewrite (H2 i j Hi Hj). now destruct (qeqb_spec (A i j) 0%num). } rewrite EF in HI. destruct HI. }
  rewrite (Hs i Hi) in E. discriminate E.
Qed.
