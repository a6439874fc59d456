(** Property C193: the flow depends on the periods of contact only, not on the events that describe them. *)
From Coq Require Import Reals Qreals Lra Lia.
From Verif Require Import Base GapModel GapProofs LouvainModel EventsModel EventsSpec EventsProofs LaplacianProofs MergeProofs EventsProps
  TransModel TransSpec TransProps ExpModel ExpSpec ExpSeries ExpProps PeriodSpec.
Local Open Scope R_scope.

(** ** Products over two grids *)
Lemma times_same n F F' G G' : same n F F' -> same n G G' -> same n (times_matrix n F G) (times_matrix n F' G').
Proof. intros H1 H2 i j Hi Hj. unfold times_matrix. apply rsum_ext. intros c Hc. now rewrite H1, H2. Qed.
Lemma same_trans n F G H : same n F G -> same n G H -> same n F H.
Proof. intros H1 H2 i j Hi Hj. now rewrite H1, H2. Qed.
Lemma same_sym n F G : same n F G -> same n G F.
Proof. intros H i j Hi Hj. symmetry. now apply H. Qed.
Lemma multiplied_step n lamda T t u r L Ls F : multiplied n lamda T (t :: u :: r) (L :: Ls) F =
  exists G, inter_matrix n (q2r (u - t)%num * lamda) L G /\ multiplied n lamda (times_matrix n T G) (u :: r) Ls F.
Proof. reflexivity. Qed.
Lemma multiplied_ext n lamda ts : forall Ls T T' F, same n T T' -> multiplied n lamda T ts Ls F -> multiplied n lamda T' ts Ls F.
Proof.
  induction ts as [|t [|u r] IH]; intros [|L Ls] T T' F HT H; try contradiction; [exact (same_trans _ _ _ _ H HT)|]. rewrite multiplied_step in *.
  destruct H as (G & HG & H). exists G. split; [exact HG|]. apply (IH _ (times_matrix n T G)); [|exact H]. apply times_same; [exact HT|intros i j _ _; reflexivity].
Qed.
Lemma times_assoc n A B C : same n (times_matrix n (times_matrix n A B) C) (times_matrix n A (times_matrix n B C)).
Proof. intros i j Hi Hj. unfold times_matrix. apply rmul_assoc. Qed.
Fixpoint fits (n : nat) (C : num -> nat -> nat -> Prop) (ts : list num) (Ls : list mat) : Prop :=
  match ts, Ls with
  | [_], [] => True
  | t :: (u :: _) as r, L :: Ls => (t < u)%num /\ walk_like n L /\ (forall w, (t <= w)%num -> (w < u)%num -> walk_laplacian n (C w) L) /\ fits n C r Ls
  | _, _ => False
  end.
Lemma fits_step n C t u r L Ls : fits n C (t :: u :: r) (L :: Ls) = ((t < u)%num /\ walk_like n L /\ (forall w, (t <= w)%num -> (w < u)%num -> walk_laplacian n (C w) L) /\ fits n C (u :: r) Ls).
Proof. reflexivity. Qed.
Lemma walk_same n (R : nat -> nat -> Prop) L L' : walk_laplacian n R L -> walk_laplacian n R L' -> forall i j, (i < n)%nat -> (j < n)%nat -> L i j = L' i j.
Proof.
  intros (a & Ha & HL) (b & Hb & HL') i j Hi Hj. rewrite HL, HL' by assumption. apply (f_equal (fun x => ((if i =? j then 1 else 0) - x)%num)).
  assert (E : forall k, (k < n)%nat -> a i k = b i k). { intros k Hk. specialize (Ha i k Hi Hk). specialize (Hb i k Hi Hk). destruct (a i k), (b i k); try reflexivity; [symmetry; apply Hb, Ha; reflexivity|apply Ha, Hb; reflexivity]. }
  unfold walk. rewrite (degree_ext n a b i E), (E j Hj). reflexivity.
Qed.
Lemma inter_same n x L L' F F' : (forall i j, (i < n)%nat -> (j < n)%nat -> L i j = L' i j) -> inter_matrix n x L F -> inter_matrix n x L' F' -> same n F F'.
Proof.
  intros HL HF HF'. apply inter_expm in HF. apply inter_expm in HF'. apply (expm_unique n (scaled x L')); [|exact HF'].
  refine (expm_ext n (scaled x L) _ F F _ _ HF); intros i j Hi Hj; [|reflexivity]. unfold scaled, toR. now rewrite HL.
Qed.
Lemma q2r_nonneg x : (0 <= x)%num -> 0 <= q2r x.
Proof. intros H. apply q2r_le in H. now rewrite q2r_0 in H. Qed.
Lemma steps_last n C ts : forall Ls, fits n C ts Ls -> (hd 0 ts <= last ts 0)%num /\ ((1 < length ts)%nat -> (hd 0 ts < last ts 0)%num).
Proof.
  induction ts as [|t [|u r] IH]; intros [|L Ls] H; try contradiction.
  - cbn. split; [apply Qcle_refl|lia].
  - rewrite fits_step in H. destruct H as (Hlt & _ & _ & H). destruct (IH Ls H) as [H1 _]. cbn [hd] in *. change (last (t :: u :: r) 0%num) with (last (u :: r) 0%num). split; [|intros _]; qlra.
Qed.
(** cutting the first step of a product *)
Lemma cut_step n lamda T t u v r L Ls F : walk_like n L -> 0 <= lamda -> (t < u)%num -> (u < v)%num -> multiplied n lamda T (t :: v :: r) (L :: Ls) F ->
  exists G, inter_matrix n (q2r (u - t)%num * lamda) L G /\ multiplied n lamda (times_matrix n T G) (u :: v :: r) (L :: Ls) F.
Proof.
  intros HL Hl H1 H2 HM. rewrite multiplied_step in HM. destruct HM as (G & HG & HM).
  assert (P1 : 0 <= q2r (u - t)%num * lamda) by (apply Rmult_le_pos; [apply q2r_nonneg; qlra|exact Hl]). assert (P2 : 0 <= q2r (v - u)%num * lamda) by (apply Rmult_le_pos; [apply q2r_nonneg; qlra|exact Hl]).
  destruct (C156_walk n L _ HL P1) as [[G1 E1] W]. destruct (C156_walk n L _ HL P2) as [[G2 E2] _]. destruct (W G1 E1) as (_ & _ & _ & HS & _).
  assert (HG' : same n G (times_matrix n G1 G2)). { apply (HS (q2r (v - u)%num * lamda) G2 G P2 E2). replace (q2r (u - t)%num * lamda + q2r (v - u)%num * lamda) with (q2r (v - t)%num * lamda); [exact HG|]. rewrite !q2r_sub. ring. }
  exists G1. split; [exact E1|]. rewrite multiplied_step. exists G2. split; [exact E2|]. refine (multiplied_ext n lamda _ _ _ _ F _ HM).
  apply (same_trans n _ (times_matrix n T (times_matrix n G1 G2))); [apply times_same; [intros i j _ _; reflexivity|exact HG']|apply same_sym, times_assoc].
Qed.
Lemma same_product n lamda (C C' : num -> nat -> nat -> Prop) : 0 <= lamda -> (forall w i j, (i < n)%nat -> (j < n)%nat -> (C w i j <-> C' w i j)) -> forall m ts ts' Ls Ls' T T' F F', (length ts + length ts' <= m)%nat ->
  fits n C ts Ls -> fits n C' ts' Ls' -> hd 0%num ts = hd 0%num ts' -> last ts 0%num = last ts' 0%num -> same n T T' ->
  multiplied n lamda T ts Ls F -> multiplied n lamda T' ts' Ls' F' -> same n F F'.
Proof.
  intros Hl HC. assert (HW : forall w L, walk_laplacian n (C' w) L -> walk_laplacian n (C w) L).
  { intros w L (adj & Ha & HL). exists adj. split; [|exact HL]. intros i j Hi Hj. rewrite (Ha i j Hi Hj). symmetry. now apply HC. }
  induction m as [|m IH]; intros ts ts' Ls Ls' T T' F F' Hm HF HF' Hh Ht HT HM HM'.
  - destruct ts; [destruct Ls; contradiction|cbn in Hm; lia].
  - destruct ts as [|t [|u r]]; destruct Ls as [|L Ls]; try contradiction; destruct ts' as [|t' [|u' r']]; destruct Ls' as [|L' Ls']; try contradiction; cbn [hd] in Hh; subst t'.
    + cbn [multiplied] in HM, HM'. apply (same_trans n F T F' HM), (same_trans n T T' F' HT), same_sym, HM'.
    + exfalso. destruct (steps_last n C' _ _ HF') as [_ H]. specialize (H ltac:(cbn; lia)). rewrite <- Ht in H. cbn in H. qlra.
    + exfalso. destruct (steps_last n C _ _ HF) as [_ H]. specialize (H ltac:(cbn; lia)). rewrite Ht in H. cbn in H. qlra.
    + pose proof HF as HF0. pose proof HF' as HF0'. rewrite fits_step in HF, HF'. destruct HF as (H1 & H2 & H3 & H4). destruct HF' as (H1' & H2' & H3' & H4').
      assert (EL : forall i j, (i < n)%nat -> (j < n)%nat -> L i j = L' i j) by (apply (walk_same n (C t)); [apply H3; [apply Qcle_refl|exact H1]|apply HW, H3'; [apply Qcle_refl|exact H1']]).
      change (last (t :: u :: r) 0%num) with (last (u :: r) 0%num) in Ht. change (last (t :: u' :: r') 0%num) with (last (u' :: r') 0%num) in Ht.
      destruct (Qc_dec u u') as [[Hu|Hu]|Hu].
      * destruct (cut_step n lamda T' t u u' r' L' Ls' F' H2' Hl H1 Hu HM') as (G' & HG' & HM2). rewrite multiplied_step in HM. destruct HM as (G & HG & HM).
        apply (IH (u :: r) (u :: u' :: r') Ls (L' :: Ls') (times_matrix n T G) (times_matrix n T' G') F F'); auto; [cbn in *; lia| |apply times_same; [exact HT|exact (inter_same n _ L L' G G' EL HG HG')]].
        rewrite fits_step. split; [exact Hu|]. split; [exact H2'|]. split; [|exact H4']. intros w Hw1 Hw2. apply H3'; [qlra|exact Hw2].
      * destruct (cut_step n lamda T t u' u r L Ls F H2 Hl H1' Hu HM) as (G & HG & HM2). rewrite multiplied_step in HM'. destruct HM' as (G' & HG' & HM').
        apply (IH (u' :: u :: r) (u' :: r') (L :: Ls) Ls' (times_matrix n T G) (times_matrix n T' G') F F'); auto; [cbn in *; lia| |apply times_same; [exact HT|exact (inter_same n _ L L' G G' EL HG HG')]].
        rewrite fits_step. split; [exact Hu|]. split; [exact H2|]. split; [|exact H4]. intros w Hw1 Hw2. apply H3; [qlra|exact Hw2].
      * subst u'. rewrite multiplied_step in HM, HM'. destruct HM as (G & HG & HM). destruct HM' as (G' & HG' & HM').
        apply (IH (u :: r) (u :: r') Ls Ls' (times_matrix n T G) (times_matrix n T' G') F F'); auto; [cbn in *; lia|apply times_same; [exact HT|exact (inter_same n _ L L' G G' EL HG HG')]].
Qed.
Lemma product_exists n lamda C : 0 <= lamda -> forall ts Ls T, fits n C ts Ls -> exists F, multiplied n lamda T ts Ls F.
Proof.
  intros Hl. induction ts as [|t [|u r] IH]; intros [|L Ls] T H; try contradiction; [exists T; cbn; intros i j _ _; reflexivity|].
  rewrite fits_step in H. destruct H as (H1 & H2 & _ & H4). destruct (C156_walk n L (q2r (u - t)%num * lamda) H2) as [[G HG] _]; [apply Rmult_le_pos; [apply q2r_nonneg; qlra|exact Hl]|].
  destruct (IH Ls (times_matrix n T G) H4) as [F HF]. exists F. rewrite multiplied_step. now exists G.
Qed.

(** ** The times of networks with the same contacts *)
Lemma fits_nth n C : forall Ls ts, length ts = S (length Ls) ->
  (forall k, (k < length Ls)%nat -> (nth k ts 0 < nth (S k) ts 0)%num /\ walk_like n (nth k Ls (fun _ _ => 0%num)) /\ forall w, (nth k ts 0 <= w)%num -> (w < nth (S k) ts 0)%num -> walk_laplacian n (C w) (nth k Ls (fun _ _ => 0%num))) -> fits n C ts Ls.
Proof.
  induction Ls as [|L Ls IH]; intros [|t [|u r]] Hlen H; cbn in Hlen; try discriminate; [exact I|]. rewrite fits_step.
  destruct (H 0%nat ltac:(cbn; lia)) as (H1 & H2 & H3). cbn [nth] in H1, H2, H3. split; [exact H1|]. split; [exact H2|]. split; [exact H3|]. apply IH; [cbn; lia|]. intros k Hk. exact (H (S k) ltac:(cbn; lia)).
Qed.
Lemma walk_laplacian_like n (R : nat -> nat -> Prop) L : (forall i, (i < n)%nat -> ~ R i i) -> walk_laplacian n R L -> walk_like n L.
Proof.
  intros HR (adj & Ha & HL). apply (walk_like_graph n (fun i j => adj i j && negb (i =? j))%bool); [intros i; rewrite Nat.eqb_refl; apply andb_false_r|].
  intros i j Hi Hj. rewrite HL by assumption. apply (f_equal (fun x => ((if i =? j then 1 else 0) - x)%num)). assert (E : forall k, (k < n)%nat -> adj i k = (adj i k && negb (i =? k))%bool).
  { intros k Hk. destruct (Nat.eqb_spec i k) as [<-|]; [|now rewrite andb_true_r]. destruct (adj i i) eqn:EA; [|reflexivity]. exfalso. apply (HR i Hi). now apply (Ha i i Hi Hi). }
  unfold walk. rewrite (degree_ext n adj (fun i k => adj i k && negb (i =? k))%bool i E), <- (E j Hj). reflexivity.
Qed.
(** what C34 says about a network *)
Definition right_laplacians (N : net) (g : list grid_row) : Prop := forall a b,
  exists ka kb Ls, compute_laplacians N g a b = Some (ka, kb, Ls) /\ start_index (times (rows N)) a ka /\ stop_index (times (rows N)) b kb /\
    length Ls = (kb - ka)%nat /\ (ka < length (times (rows N)))%nat /\ (kb < length (times (rows N)))%nat /\
    forall k u, (k < kb - ka)%nat -> (nth (ka + k) (times (rows N)) 0 <= u)%num -> (u < nth (S (ka + k)) (times (rows N)) 0)%num ->
      walk_laplacian (num_nodes_of N) (fun i j => contact (rows N) i j u) (nth k Ls (fun _ _ => 0%num)).
Lemma between_nth ts ka kb k : (ka + k <= kb)%nat -> (kb < length ts)%nat -> nth k (between ts ka kb) 0%num = nth (ka + k) ts 0%num.
Proof. intros H1 H2. unfold between. rewrite segment_nth by lia. reflexivity. Qed.
Lemma between_length ts ka kb : (ka <= kb)%nat -> (kb < length ts)%nat -> length (between ts ka kb) = S (kb - ka).
Proof. intros. unfold between. rewrite skipn_length, firstn_length. lia. Qed.
Lemma between_ends ts ka kb : (ka <= kb)%nat -> (kb < length ts)%nat -> hd 0%num (between ts ka kb) = nth ka ts 0%num /\ last (between ts ka kb) 0%num = nth kb ts 0%num.
Proof.
  intros H1 H2. split.
  - rewrite <- (Nat.add_0_r ka) at 2. rewrite <- (between_nth ts ka kb 0) by lia. now destruct (between ts ka kb).
  - rewrite <- nth_last, between_length by assumption. rewrite between_nth by lia. f_equal. lia.
Qed.
Lemma network_fits N g a b ka kb Ls : right_laplacians N g -> no_self_contact (rows N) -> compute_laplacians N g a b = Some (ka, kb, Ls) -> (ka <= kb)%nat ->
  fits (num_nodes_of N) (fun u i j => contact (rows N) i j u) (between (times (rows N)) ka kb) Ls.
Proof.
  intros HR Hself E Hk. destruct (HR a b) as (ka' & kb' & Ls' & E' & _ & _ & Hlen & La & Lb & HL). rewrite E in E'. injection E' as <- <- <-.
  assert (HS := times_sorted (rows N)). apply fits_nth; [rewrite (between_length _ _ _ Hk Lb); exact (f_equal S (eq_sym Hlen))|]. intros k Hk'. assert (Hk2 : (k < kb - ka)%nat) by (rewrite <- Hlen; exact Hk'). clear Hk'. rename Hk2 into Hk'. rewrite !between_nth by lia. rewrite Nat.add_succ_r.
  assert (Hlt : (nth (ka + k) (times (rows N)) 0 < nth (S (ka + k)) (times (rows N)) 0)%num) by (apply qsorted_nth; [exact HS|lia|lia]). split; [exact Hlt|]. split; [|intros w H1 H2; now apply HL].
  apply (walk_laplacian_like _ (fun i j => contact (rows N) i j (nth (ka + k) (times (rows N)) 0%num))); [|apply HL; [exact Hk'|apply Qcle_refl|exact Hlt]].
  intros i _ (e & He & HJ & _). apply (Hself e He). destruct HJ as [[A B]|[A B]]; congruence.
Qed.
Lemma times_covered t t' : lasting t -> lasting t' -> (forall i j u, contact t i j u <-> contact t' i j u) -> forall x, In x (times t') -> exists y z, In y (times t) /\ In z (times t) /\ (y <= x)%num /\ (x <= z)%num.
Proof.
  intros HL HL' HC x Hx. apply times_in in Hx. destruct Hx as (e & He & Hx). pose proof (HL' e He) as Hlt.
  assert (Hcov : forall u, (e_start e <= u)%num -> (u < e_end e)%num -> exists f, In f (map snd t) /\ (e_start f <= u)%num /\ (u < e_end f)%num).
  { intros u H1 H2. destruct (proj2 (HC (e_src e) (e_tgt e) u)) as (f & Hf & _ & Hact & Hact'); [|now exists f]. exists e. split; [exact He|]. split; [left; now split|now split]. }
  destruct (Hcov (e_start e) (Qcle_refl _) Hlt) as (f & Hf & F1 & F2). assert (Hy : In (e_start f) (times t)) by (apply times_in; exists f; auto).
  assert (Hz : exists z, In z (times t) /\ (e_end e <= z)%num).
  { destruct (existsb (fun z => qleb (e_end e) z) (times t)) eqn:EX; [apply existsb_exists in EX; destruct EX as (z & Hz & Ez); exists z; split; [exact Hz|]; now destruct (qleb_spec (e_end e) z)|]. exfalso.
    assert (HA : forall z, In z (times t) -> (z < e_end e)%num). { intros z Hz. apply Qcnot_le_lt. intros Hle. assert (existsb (fun z => qleb (e_end e) z) (times t) = true); [|congruence]. apply existsb_exists. exists z. split; [exact Hz|]. now destruct (qleb_spec (e_end e) z). }
    clear EX. assert (HM : exists M, (e_start e <= M)%num /\ (M < e_end e)%num /\ forall z, In z (times t) -> (z <= M)%num).
    { clear - HA Hlt. induction (times t) as [|z l IH]; [exists (e_start e); split; [apply Qcle_refl|]; split; [exact Hlt|intros ? []]|].
      destruct IH as (M & M1 & M2 & M3); [intros y Hy; apply HA; now right|]. destruct (qleb_spec z M) as [Hz|Hz].
      - exists M. split; [exact M1|]. split; [exact M2|]. intros y [<-|Hy]; [exact Hz|now apply M3].
      - apply Qcnot_le_lt in Hz. exists z. split; [qlra|]. split; [apply HA; now left|]. intros y [<-|Hy]; [apply Qcle_refl|]. specialize (M3 y Hy). qlra. }
    destruct HM as (M & M1 & M2 & M3). destruct (Hcov M M1 M2) as (f' & Hf' & _ & F'). specialize (M3 (e_end f') ltac:(apply times_in; exists f'; auto)). qlra. }
  destruct Hz as (z & Hz & Hez). exists (e_start f), z. split; [exact Hy|]. split; [exact Hz|]. destruct Hx as [-> | ->]; split; qlra.
Qed.
Lemma first_least ts x : StronglySorted Qclt ts -> In x ts -> (nth 0 ts 0 <= x)%num.
Proof. intros HS Hx. apply (In_nth _ _ 0%num) in Hx as (k & Hk & <-). destruct k; [apply Qcle_refl|]. apply Qclt_le_weak, qsorted_nth; [exact HS|lia|exact Hk]. Qed.
Lemma last_greatest ts k x : StronglySorted Qclt ts -> S k = length ts -> In x ts -> (x <= nth k ts 0)%num.
Proof. intros HS Hk Hx. apply (In_nth _ _ 0%num) in Hx as (m & Hm & <-). destruct (Nat.eq_dec m k) as [-> |]; [apply Qcle_refl|]. apply Qclt_le_weak, qsorted_nth; [exact HS|lia|lia]. Qed.
Lemma index_time ts t k : StronglySorted Qclt ts -> (k < length ts)%nat -> In t ts -> start_index ts (Some t) k -> nth k ts 0%num = t.
Proof.
  intros HS Hk Ht [[H1 H2]|[_ H]]; [|specialize (H t Ht); qlra]. apply (In_nth _ _ 0%num) in Ht as (m & Hm & <-).
  destruct (Nat.lt_trichotomy m k) as [H|[-> |H]]; [|reflexivity|].
  - pose proof (qsorted_nth ts m k 0%num HS H Hk). qlra.
  - specialize (H2 m H Hm). qlra.
Qed.
Lemma same_flow N N' g g' a b : right_laplacians N g -> right_laplacians N' g' -> lasting (rows N) -> lasting (rows N') -> no_self_contact (rows N) -> no_self_contact (rows N') ->
  num_nodes_of N' = num_nodes_of N -> (forall i j u, contact (rows N) i j u <-> contact (rows N') i j u) -> in_both (times (rows N)) (times (rows N')) a -> in_both (times (rows N)) (times (rows N')) b ->
  exists ka kb Ls ka' kb' Ls', compute_laplacians N g a b = Some (ka, kb, Ls) /\ compute_laplacians N' g' a b = Some (ka', kb', Ls') /\
    nth ka' (times (rows N')) 0%num = nth ka (times (rows N)) 0%num /\ nth kb' (times (rows N')) 0%num = nth kb (times (rows N)) 0%num /\
    forall lamda, 0 <= lamda -> (ka <= kb)%nat ->
      (exists F, multiplied (num_nodes_of N) lamda reye (between (times (rows N)) ka kb) Ls F) /\
      (exists F', multiplied (num_nodes_of N) lamda reye (between (times (rows N')) ka' kb') Ls' F') /\
      forall F F', multiplied (num_nodes_of N) lamda reye (between (times (rows N)) ka kb) Ls F -> multiplied (num_nodes_of N) lamda reye (between (times (rows N')) ka' kb') Ls' F' -> same (num_nodes_of N) F F'.
Proof.
  intros HR HR' HL HL' Hs Hs' Hn HC Ha Hb. destruct (HR a b) as (ka & kb & Ls & E & Sa & Sb & Hlen & La & Lb & _). destruct (HR' a b) as (ka' & kb' & Ls' & E' & Sa' & Sb' & Hlen' & La' & Lb' & _).
  assert (HS := times_sorted (rows N)). assert (HS' := times_sorted (rows N')).
  assert (Ea : nth ka' (times (rows N')) 0%num = nth ka (times (rows N)) 0%num).
  { destruct a as [t|]; [destruct Ha as [Ha Ha']; now rewrite (index_time _ t ka HS La Ha Sa), (index_time _ t ka' HS' La' Ha' Sa')|]. cbn in Sa, Sa'. subst ka ka'.
    destruct (times_covered _ _ HL HL' HC (nth 0 (times (rows N')) 0%num)) as (y & _ & Hy & _ & Hy' & _); [now apply nth_In|]. destruct (times_covered _ _ HL' HL (fun i j u => iff_sym (HC i j u)) (nth 0 (times (rows N)) 0%num)) as (y2 & _ & Hy2 & _ & Hy2' & _); [now apply nth_In|].
    pose proof (first_least _ _ HS Hy). pose proof (first_least _ _ HS' Hy2). apply Qcle_antisym; qlra. }
  assert (Eb : nth kb' (times (rows N')) 0%num = nth kb (times (rows N)) 0%num).
  { destruct b as [t|]; [destruct Hb as [Hb Hb']; now rewrite (index_time _ t kb HS Lb Hb Sb), (index_time _ t kb' HS' Lb' Hb' Sb')|]. cbn in Sb, Sb'.
    destruct (times_covered _ _ HL HL' HC (nth kb' (times (rows N')) 0%num)) as (_ & z & _ & Hz & _ & Hz'); [now apply nth_In|]. destruct (times_covered _ _ HL' HL (fun i j u => iff_sym (HC i j u)) (nth kb (times (rows N)) 0%num)) as (_ & z2 & _ & Hz2 & _ & Hz2'); [now apply nth_In|].
    pose proof (last_greatest _ _ _ HS Sb Hz). pose proof (last_greatest _ _ _ HS' Sb' Hz2). apply Qcle_antisym; qlra. }
  exists ka, kb, Ls, ka', kb', Ls'. repeat (split; [assumption|]). intros lamda Hl Hk.
  assert (Hk' : (ka' <= kb')%nat).
  { destruct (Nat.le_gt_cases ka' kb') as [|H]; [assumption|]. pose proof (qsorted_nth _ kb' ka' 0%num HS' H La') as H1. rewrite Ea, Eb in H1. destruct (Nat.eq_dec ka kb) as [-> |]; [qlra|]. pose proof (qsorted_nth _ ka kb 0%num HS ltac:(lia) Lb). qlra. }
  pose proof (network_fits N g a b ka kb Ls HR Hs E Hk) as HF. pose proof (network_fits N' g' a b ka' kb' Ls' HR' Hs' E' Hk') as HF'. rewrite Hn in HF'.
  split; [exact (product_exists _ _ _ Hl _ _ _ HF)|]. split; [exact (product_exists _ _ _ Hl _ _ _ HF')|]. intros F F' HM HM'.
  destruct (between_ends _ _ _ Hk Lb) as [B1 B2]. destruct (between_ends _ _ _ Hk' Lb') as [B1' B2'].
  refine (same_product _ lamda _ _ Hl _ _ _ _ _ _ reye reye F F' (le_n _) HF HF' _ _ _ HM HM'); [intros w i j _ _; apply HC|congruence|congruence|intros i j _ _; reflexivity].
Qed.
Lemma same_nodes_of t t' : lasting t -> lasting t' -> (forall i j u, contact t i j u <-> contact t' i j u) -> node_array t' = node_array t.
Proof.
  intros HL HL' HC. assert (K : forall s s' x, lasting s -> (forall i j u, contact s i j u -> contact s' i j u) -> In x (node_array s) -> In x (node_array s')).
  { intros s s' x Hs HI Hx. apply node_array_in in Hx as (e & He & Hx). destruct (HI (e_src e) (e_tgt e) (e_start e)) as (f & Hf & HJ & _); [exists e; split; [exact He|]; split; [left; now split|]; split; [apply Qcle_refl|now apply Hs]|].
    apply node_array_in. exists f. split; [exact Hf|]. destruct HJ as [[A B]|[A B]]; destruct Hx as [-> | ->]; auto. }
  assert (KI : forall x, In x (node_array t') <-> In x (node_array t)) by (intros x; split; apply K; auto; intros i j u; apply HC).
  clear - KI. assert (S1 := node_array_sorted t). assert (S2 := node_array_sorted t'). revert S1 S2 KI. generalize (node_array t) as l. generalize (node_array t') as l'. clear.
  induction l' as [|x l' IH]; intros [|y l] S1 S2 KI; [reflexivity|exfalso; apply (proj2 (KI y)); now left|exfalso; apply (proj1 (KI x)); now left|].
  inversion S1 as [|? ? S1' F1]; subst. inversion S2 as [|? ? S2' F2]; subst. rewrite Forall_forall in F1, F2.
  assert (x = y). { destruct (proj1 (KI x) (or_introl eq_refl)) as [E|E]; [now symmetry|]. destruct (proj2 (KI y) (or_introl eq_refl)) as [E2|E2]; [exact E2|]. specialize (F1 x E). specialize (F2 y E2). lia. }
  subst y. f_equal. apply IH; auto. intros z. split; intros Hz.
  - destruct (proj1 (KI z) (or_intror Hz)) as [<-|H]; [|exact H]. specialize (F2 x Hz). lia.
  - destruct (proj2 (KI z) (or_intror Hz)) as [<-|H]; [|exact H]. specialize (F1 x Hz). lia.
Qed.

(** * C193 *)
(** two lists of events without overlaps that describe the same periods of contact *)
Theorem C193_events : forall fuel fuel' srcs tgts starts ends srcs' tgts' starts' ends' N N' g g' a b,
  make_net fuel true false srcs tgts starts ends = Some N -> make_net fuel' true false srcs' tgts' starts' ends' = Some N' ->
  rows N <> [] -> ids_ok N = true -> no_self_contact (rows N) -> lasting (rows N) -> lasting (rows N') -> no_overlap (rows N) -> no_overlap (rows N') ->
  (forall i j u, contact (rows N) i j u <-> contact (rows N') i j u) ->
  is_time_grid (rows N) g -> is_time_grid (rows N') g' -> in_both (times (rows N)) (times (rows N')) a -> in_both (times (rows N)) (times (rows N')) b ->
  nodes N' = nodes N /\
  exists ka kb Ls ka' kb' Ls', compute_laplacians N g a b = Some (ka, kb, Ls) /\ compute_laplacians N' g' a b = Some (ka', kb', Ls') /\
    nth ka' (times (rows N')) 0%num = nth ka (times (rows N)) 0%num /\ nth kb' (times (rows N')) 0%num = nth kb (times (rows N)) 0%num /\
    forall lamda, 0 <= lamda -> (ka <= kb)%nat ->
      (exists F, multiplied (num_nodes_of N) lamda reye (between (times (rows N)) ka kb) Ls F) /\
      (exists F', multiplied (num_nodes_of N) lamda reye (between (times (rows N')) ka' kb') Ls' F') /\
      forall F F', multiplied (num_nodes_of N) lamda reye (between (times (rows N)) ka kb) Ls F -> multiplied (num_nodes_of N) lamda reye (between (times (rows N')) ka' kb') Ls' F' -> same (num_nodes_of N) F F'.
Proof.
  intros fuel fuel' srcs tgts starts ends srcs' tgts' starts' ends' N N' g g' a b HN HN' Hne Hids Hself HL HL' HV HV' HC HG HG' Ha Hb.
  assert (EN : nodes N' = nodes N).
  { unfold make_net in HN, HN'. destruct (build_table true srcs tgts starts ends); [|discriminate]. destruct (build_table true srcs' tgts' starts' ends'); [|discriminate]. injection HN as <-. injection HN' as <-. cbn [nodes rows] in *. now apply same_nodes_of. }
  split; [exact EN|]. assert (HE : forall e, In e (map snd (rows N')) -> exists f, In f (map snd (rows N)) /\ joins f (e_src e) (e_tgt e)).
  { intros e He. destruct (proj2 (HC (e_src e) (e_tgt e) (e_start e))) as (f & Hf & HJ & _); [|now exists f]. exists e. split; [exact He|]. split; [left; now split|]. split; [apply Qcle_refl|now apply HL']. }
  apply same_flow; auto.
  - intros a0 b0. exact (C34_laplacians fuel srcs tgts starts ends N g a0 b0 HN Hne Hids Hself HL HV HG).
  - intros a0 b0. apply (C34_laplacians fuel' srcs' tgts' starts' ends' N' g' a0 b0 HN'); auto.
    + intros E0. destruct (rows N) as [|[k e] r]; [now apply Hne|]. destruct (proj1 (HC (e_src e) (e_tgt e) (e_start e))) as (f & Hf & _); [exists e; split; [now left|]; split; [left; now split|]; split; [apply Qcle_refl|apply HL; now left]|]. rewrite E0 in Hf. destruct Hf.
    + apply ids_ok_spec. intros e He. destruct (HE e He) as (f & Hf & HJ). destruct (proj1 (ids_ok_spec N) Hids f Hf) as [I1 I2]. unfold num_nodes_of. rewrite EN. unfold num_nodes_of in I1, I2. destruct HJ as [[<- <-]|[<- <-]]; now split.
    + intros e He K. destruct (HE e He) as (f & Hf & HJ). apply (Hself f Hf). destruct HJ as [[A B]|[A B]]; congruence.
  - intros e He K. destruct (HE e He) as (f & Hf & HJ). apply (Hself f Hf). destruct HJ as [[A B]|[A B]]; congruence.
  - unfold num_nodes_of. now rewrite EN.
Qed.
(** a network whose overlapping events were merged, and events without overlaps that describe the same periods *)
Theorem C193_merged : forall fuel fuel' srcs tgts starts ends srcs' tgts' starts' ends' N0 N N' g g' a b,
  make_net 0 true false srcs tgts starts ends = Some N0 -> make_net fuel true true srcs tgts starts ends = Some N -> make_net fuel' true false srcs' tgts' starts' ends' = Some N' ->
  rows N0 <> [] -> ids_ok N0 = true -> no_self_contact (rows N0) -> lasting (rows N0) -> simple_overlaps (rows N0) -> lasting (rows N') -> no_overlap (rows N') ->
  (forall i j u, contact (rows N0) i j u <-> contact (rows N') i j u) ->
  is_time_grid (rows N) g -> is_time_grid (rows N') g' -> in_both (times (rows N)) (times (rows N')) a -> in_both (times (rows N)) (times (rows N')) b ->
  nodes N' = nodes N /\
  exists ka kb Ls ka' kb' Ls', compute_laplacians N g a b = Some (ka, kb, Ls) /\ compute_laplacians N' g' a b = Some (ka', kb', Ls') /\
    nth ka' (times (rows N')) 0%num = nth ka (times (rows N)) 0%num /\ nth kb' (times (rows N')) 0%num = nth kb (times (rows N)) 0%num /\
    forall lamda, 0 <= lamda -> (ka <= kb)%nat ->
      (exists F, multiplied (num_nodes_of N) lamda reye (between (times (rows N)) ka kb) Ls F) /\
      (exists F', multiplied (num_nodes_of N) lamda reye (between (times (rows N')) ka' kb') Ls' F') /\
      forall F F', multiplied (num_nodes_of N) lamda reye (between (times (rows N)) ka kb) Ls F -> multiplied (num_nodes_of N) lamda reye (between (times (rows N')) ka' kb') Ls' F' -> same (num_nodes_of N) F F'.
Proof.
  intros fuel fuel' srcs tgts starts ends srcs' tgts' starts' ends' N0 N N' g g' a b HN0 HM HN' Hne Hids Hself HL HSO HL' HV' HC HG HG' Ha Hb.
  assert (HOrd : ordered (rows N0)) by (intros e He; specialize (HL e He); qlra).
  destruct (proj2 (C37_sound_partial srcs tgts starts ends N0 HN0 Hids HOrd) fuel N HM) as (EN & Hids1 & HV1 & HC1 & HT1 & HC2). specialize (HC2 HL HSO).
  assert (HL1 : lasting (rows N)).
  { destruct (make_net_well _ _ _ _ _ _ HN0 HOrd Hids) as [HW HB]. rewrite (make_net_merge _ _ _ _ _ N0 HN0) in HM. destruct (merge_all_ok fuel N0 N HW HM) as (_ & _ & L' & _). now apply L'. }
  assert (Hself1 : no_self_contact (rows N)) by (intros e He; destruct (HT1 e He) as (f & Hf & -> & -> & _); now apply Hself).
  assert (HCC : forall i j u, contact (rows N) i j u <-> contact (rows N') i j u) by (intros i j u; rewrite <- HC; split; [apply HC1|apply HC2]).
  assert (Hne1 : rows N <> []).
  { intros E0. destruct (rows N0) as [|[k e] r]; [now apply Hne|]. destruct (HC2 (e_src e) (e_tgt e) (e_start e)) as (f & Hf & _); [exists e; split; [now left|]; split; [left; now split|]; split; [apply Qcle_refl|apply HL; now left]|]. rewrite E0 in Hf. destruct Hf. }
  assert (EN' : nodes N' = nodes N).
  { rewrite EN. unfold make_net in HN0, HN'. destruct (build_table true srcs tgts starts ends); [|discriminate]. destruct (build_table true srcs' tgts' starts' ends'); [|discriminate]. injection HN0 as <-. injection HN' as <-. cbn [nodes rows] in *. now apply same_nodes_of. }
  split; [exact EN'|]. assert (HE : forall e, In e (map snd (rows N')) -> exists f, In f (map snd (rows N)) /\ joins f (e_src e) (e_tgt e)).
  { intros e He. destruct (proj2 (HCC (e_src e) (e_tgt e) (e_start e))) as (f & Hf & HJ & _); [|now exists f]. exists e. split; [exact He|]. split; [left; now split|]. split; [apply Qcle_refl|now apply HL']. }
  assert (Hself' : no_self_contact (rows N')) by (intros e He K; destruct (HE e He) as (f & Hf & HJ); apply (Hself1 f Hf); destruct HJ as [[A B]|[A B]]; congruence).
  apply same_flow; auto.
  - intros a0 b0. exact (C34_merged fuel srcs tgts starts ends N0 N g a0 b0 HN0 Hids Hself HL HM Hne1 HG).
  - intros a0 b0. apply (C34_laplacians fuel' srcs' tgts' starts' ends' N' g' a0 b0 HN'); auto.
    + intros E0. destruct (rows N) as [|[k e] r]; [now apply Hne1|]. destruct (proj1 (HCC (e_src e) (e_tgt e) (e_start e))) as (f & Hf & _); [exists e; split; [now left|]; split; [left; now split|]; split; [apply Qcle_refl|apply HL1; now left]|]. rewrite E0 in Hf. destruct Hf.
    + apply ids_ok_spec. intros e He. destruct (HE e He) as (f & Hf & HJ). destruct (proj1 (ids_ok_spec N) Hids1 f Hf) as [I1 I2]. unfold num_nodes_of. rewrite EN'. unfold num_nodes_of in I1, I2. destruct HJ as [[<- <-]|[<- <-]]; now split.
  - unfold num_nodes_of. now rewrite EN'.
Qed.
(* a contact of nodes 0 and 1 from 0 to 4 given as one event and as two *)
Definition whole : net := mkNet [(0%nat, ev 0 1 0 4); (1%nat, ev 1 2 2 6)] [0; 1; 2]%nat.
Definition cut : net := mkNet [(0%nat, ev 0 1 0 1); (1%nat, ev 1 0 1 4); (2%nat, ev 1 2 2 6)] [0; 1; 2]%nat.
Example C193_applies : make_net 0 true false [0; 1]%nat [1; 2]%nat [qn 0; qn 2] [qn 4; qn 6] = Some whole /\ make_net 0 true false [0; 1; 1]%nat [1; 0; 2]%nat [qn 0; qn 1; qn 2] [qn 1; qn 4; qn 6] = Some cut /\
  ids_ok whole = true /\ no_self_contact (rows whole) /\ lasting (rows whole) /\ lasting (rows cut) /\ no_overlap (rows whole) /\ no_overlap (rows cut) /\
  (forall i j u, contact (rows whole) i j u <-> contact (rows cut) i j u) /\ is_time_grid (rows whole) (sorted_grid (rows whole)) /\ is_time_grid (rows cut) (sorted_grid (rows cut)) /\
  in_both (times (rows whole)) (times (rows cut)) (Some (qn 2)) /\ length (times (rows whole)) = 4%nat /\ length (times (rows cut)) = 5%nat.
Proof.
  assert (HV : no_overlap (rows whole)).
  { intros x y e f i j He Hf Hxy J1 J2. cbn in He, Hf. destruct He as [He|[He|[]]], Hf as [Hf|[Hf|[]]]; injection He as <- <-; injection Hf as <- <-; try congruence; unfold joins in J1, J2; cbn in J1, J2; lia. }
  assert (HV' : no_overlap (rows cut)).
  { intros x y e f i j He Hf Hxy J1 J2. cbn in He, Hf. destruct He as [He|[He|[He|[]]]], Hf as [Hf|[Hf|[Hf|[]]]]; injection He as <- <-; injection Hf as <- <-; try congruence;
    try (left; vm_compute; discriminate); try (right; vm_compute; discriminate); unfold joins in J1, J2; cbn in J1, J2; lia. }
  assert (HC : forall i j u, contact (rows whole) i j u <-> contact (rows cut) i j u).
  { intros i j u. split; intros (e & He & HJ & [A1 A2]); cbn [whole cut rows map snd In] in He.
    - destruct He as [<-|[<-|[]]]; [|exists (ev 1 2 2 6); split; [right; right; now left|]; split; [exact HJ|now split]].
      destruct (qltb_spec u (qn 1)) as [Hu|Hu]; [exists (ev 0 1 0 1); split; [now left|]; split; [exact HJ|now split]|]. exists (ev 1 0 1 4). split; [right; now left|]. split; [unfold joins in *; cbn in *; tauto|]. split; [now apply Qcnot_lt_le|exact A2].
    - destruct He as [<-|[<-|[<-|[]]]]; [| |exists (ev 1 2 2 6); split; [right; now left|]; split; [exact HJ|now split]]; exists (ev 0 1 0 4); (split; [now left|]); (split; [unfold joins in *; cbn in *; tauto|]); split; cbn [ev e_start e_end] in *.
      + exact A1. 
      + apply (Qclt_trans _ _ _ A2). reflexivity.
      + apply (Qcle_trans _ (qn 1)); [vm_compute; discriminate|exact A1].
      + exact A2. }
  split; [reflexivity|]. split; [reflexivity|]. split; [reflexivity|]. split; [intros e; in_cases; cbn; lia|]. split; [intros e; in_cases; vm_compute; reflexivity|]. split; [intros e; in_cases; vm_compute; reflexivity|].
  split; [exact HV|]. split; [exact HV'|]. split; [exact HC|]. split; [apply grid_exists|]. split; [apply grid_exists|]. split; [|split; reflexivity].
  split; apply times_in; exists (ev 1 2 2 6); (split; [cbn; tauto|now left]).
Qed.

Print Assumptions C193_events.
Print Assumptions C193_merged.
